(** * PropDeleg: property C92 (impls that hand fields on to any impl of the program). *)
From Coq Require Import Arith.
From Verif Require Import Base Types Storage Serializer Serialize Client Spec ClientSpec ArithFacts StorageFacts StorageHist TypeFacts SerMain SerRoot SerProps
  ClientFacts PropClient PropResume Derive DeriveSpec DeriveFacts Mixed MixedFacts PropMixed MixedValid PropMixedValue PropMixedSession
  GenStorage GenSpec GenFacts PropGen GenSerializer GenSerSpec GenSerAV GenSerFacts GenSerRoot PropGenSer
  GenClient GenClientSpec GenClientFacts PropGenClient GenMixed GenMixedFacts PropLoad Relocate PropRelocate Depth Deleg DelegFacts DelegValid.
From Coq Require Import ZifyBool ZifyNat ZifyN.
Local Open Scope N_scope.

(** Programs whose hand-written impls hand nothing on are those of C79. *)
Theorem C92_conservative {P : Params} {L : Lexer} : forall pg k m sf, no_delegation pg m ->
  forall f t a z, dx_data pg k m f t a z = mx_data pg k m sf f t a z.
Proof.
  intros pg k m sf [N1 N2].
  assert (S : forall rec ss, forallb no_fields ss = true -> forall a, eqm (dx_steps pg k m rec a ss) (run_steps k (pr_env pg) m sf a ss)).
  { intros rec. apply (steps_induct (fun s => no_fields s = true -> forall a, eqm (dx_step pg k m rec a s) (run_step k (pr_env pg) m sf a s))
      (fun ss => forallb no_fields ss = true -> forall a, eqm (dx_steps pg k m rec a ss) (run_steps k (pr_env pg) m sf a ss)));
      try (intros; apply eqm_refl).
    - intros off l tp n body IH Hn a. rewrite dx_push, run_push. apply eqm_bind; [apply eqm_refl|intros ad].
      apply eqm_bind; [|intros; apply eqm_refl]. apply eqm_pps. apply IH. exact Hn.
    - discriminate.
    - intros s ss I1 I2 Hn a. cbn [forallb] in Hn. apply andb_prop in Hn. destruct Hn as [H1 H2]. cbn [dx_steps run_steps].
      apply eqm_bind; [apply I1; exact H1|intros _; apply I2; exact H2]. }
  cut (forall f t a, eqm (dx_data pg k m f t a) (mx_data pg k m sf f t a)); [intros X f t a; exact (X f t a)|].
  induction f as [|f IH]; intros t a; [apply eqm_refl|].
  assert (HF : forall fs a, eqm (for_fields fs a (dx_data pg k m f)) (for_fields fs a (mx_data pg k m sf f))).
  { induction fs as [|[off u] fs IHf]; intros b; [apply eqm_refl|]. cbn [for_fields]. apply eqm_bind; [apply IH|intros _; apply IHf]. }
  assert (HL : forall n u b, eqm (for_elems n b (size_of (pr_env pg) u) (dx_data pg k m f u)) (for_elems n b (size_of (pr_env pg) u) (mx_data pg k m sf f u))).
  { induction n as [|n IHn]; intros u b; [apply eqm_refl|]. cbn [for_elems]. apply eqm_bind; [apply IH|intros _; apply IHn]. }
  assert (HD : forall i v fs a, eqm (dx_derived pg k m (dx_data pg k m f) i v fs a) (exec_derived pg k m sf (mx_data pg k m sf f) i v fs a)).
  { intros i v fs b. unfold dx_derived, exec_derived. destruct (generated i v) as [cs|]; [|apply eqm_refl].
    induction cs as [|[c n] cs IHc]; [apply eqm_refl|]. cbn [dx_exec exec]. destruct (nth_error fs n) as [[off u]|]; [|apply eqm_refl].
    apply eqm_bind; [|intros _; exact IHc]. destruct c as [|w]; cbn [dx_callee callee_run]; [apply IH|apply S; apply N2]. }
  destruct t as [l ok|t|vl t|vl|t n|l fs|l d vss|id]; cbn [mx_data dx_data].
  - apply eqm_refl.
  - unfold ser_box. destruct (_ =? 0); [apply eqm_refl|]. apply eqm_bind; [apply eqm_refl|intros pa].
    apply eqm_bind; [apply eqm_refl|intros p]. unfold push_and_process. apply eqm_bind; [|intros; apply eqm_refl]. apply eqm_pps. apply IH.
  - unfold ser_vec. destruct (_ =? 0); [apply eqm_refl|]. apply eqm_bind; [apply eqm_refl|intros len].
    destruct (len =? 0); [apply eqm_refl|].
    apply eqm_bind; [apply eqm_refl|intros _]. apply eqm_bind; [apply eqm_refl|intros vo].
    apply eqm_bind; [apply eqm_refl|intros pa]. apply eqm_bind; [apply eqm_refl|intros p].
    apply eqm_bind; [|intros; apply eqm_refl]. apply eqm_pps. apply HL.
  - apply eqm_refl.
  - apply HL.
  - apply HF.
  - destruct (read_discr m a d); [|apply eqm_refl]. destruct (nth_error vss n); [apply HF|apply eqm_refl].
  - destruct (impl_for pg id) as [i|h|] eqn:EI; [| |apply eqm_refl].
    + destruct (pr_env pg id) as [[l0 ok0|t0|vl0 t0|vl0|t0 n0|l0 fs0|l0 d vss|i0]|]; try apply eqm_refl; [apply HD|].
      destruct (read_discr m a d); [|apply eqm_refl]. destruct (nth_error vss n); [apply HD|apply eqm_refl].
    + apply S. eapply N1. exact EI.
Qed.

(** Serializing a value makes exactly the calls [calls] says, which are proper ones and hand nothing on; so all the theorems about
    hand-written implementations (C47, C57, C77) are about any type of the program. *)
Theorem C92_calls {P : Params} {L : Lexer} : forall pg k m t a v f,
  let E := pr_env pg in
  cfg_ok -> lexer_ok -> wf_env E -> program_ok pg -> delegates_well pg m ->
  valid_input E any_header m t a v -> (vdepth v < f)%nat ->
  exists ss, calls pg m f t a = Some ss /\ (forall f', (f <= f')%nat -> calls pg m f' t a = Some ss) /\
    steps_ok E m 0 (size_of E t) (align_of E t) a ss /\ forallb no_fields ss = true /\
    (forall z,
       dx_data pg k m f t a z = run_steps k E m 0 a ss z /\
       dx_serialize_value pg k m f t a z =
         serialize_value_with k (slice_at m (layout_of E t) a 1) (run_steps k E m 0 a ss) z /\
       dx_serialize pg k m f t a z = client_serialize k E m 0 (layout_of E t) a ss z).
Proof.
  intros pg k m t a v f E C LO HE PO DW (Hw & Ha & Hr) Hf.
  destruct (calls_exist pg m C HE LO PO DW f t a v Hr Hw Ha Hf) as [ss Hc]. exists ss.
  pose proof (calls_make pg m LO PO f f ltac:(lia) t a ss Hc) as Hm.
  destruct (C79_calls (written_out pg m f) k m 0 t a v C LO HE (out_ok pg m f PO) (out_wb pg m C HE LO PO DW f) (conj Hw (conj Ha Hr))) as (ss' & K1 & K2 & K3 & K4).
  rewrite (K2 ss Hm) in *. clear Hm.
  assert (D : eqm (dx_data pg k m f t a) (run_steps k E m 0 a ss')).
  { eapply eqm_trans; [exact (dx_is_mx pg m C HE LO PO DW k f f (le_n f) t a v (conj Hr (conj Hw Ha)) Hf)|]. intros z. exact (proj1 (K4 f z Hf)). }
  assert (V : eqm (dx_serialize_value pg k m f t a) (serialize_value_with k (slice_at m (layout_of E t) a 1) (run_steps k E m 0 a ss'))) by (apply eqm_svw; exact D).
  ands; auto.
  - intros f' Hf'. exact (calls_mono pg m f f' Hf' t a ss' Hc).
  - exact (calls_no_fields pg m f t a ss' Hc).
  - intros z. ands; auto. apply (eqm_bind _ _ _ _ V). intros; apply eqm_refl.
Qed.

(** So serialize leaves, for a value of any type of the program, the image of those calls; and never has undefined behaviour. *)
Theorem C92_delegating {P : Params} {L : Lexer} : forall pg k m t a v w f,
  let E := pr_env pg in let l := layout_of E t in
  cfg_ok -> alloc_ok -> lexer_ok -> wf_env E -> program_ok pg -> delegates_well pg m ->
  storage_ok w -> valid_input E any_header m t a v -> 0 < size_of E t -> (vdepth v < f)%nat ->
  exists ss, calls pg m f t a = Some ss /\
    match dx_serialize pg k m f t a (from_storage w) with
    | Ok p z =>
        let w' := z_sw z in
        p = push_start (s_pos (sw_s w)) l /\
        s_pos (sw_s w') = steps_end E (push_end (s_pos (sw_s w)) l 1) ss /\
        storage_ok w' /\
        (forall i, i < s_pos (sw_s w) -> s_buf (sw_s w') i = s_buf (sw_s w) i) /\
        region k E m (out_mem (read_base k w') w') (read_base k w') p a (l_size l)
          (push_end (s_pos (sw_s w)) l 1) ss
    | Panic e z =>
        (e = PUser /\ existsb may_panic ss = true \/
         e = PCapacity /\ MAXC < steps_end E (push_end (s_pos (sw_s w)) l 1) ss) /\
        storage_ok (z_sw z) /\
        (forall i, i < s_pos (sw_s w) -> s_buf (sw_s (z_sw z)) i = s_buf (sw_s w) i)
    | Abort => alloc_failed
    | UB | OutOfFuel => False
    end.
Proof.
  intros pg k m t a v w f E l C HA LO HE PO DW Hok Hv Hs Hf.
  destruct (C92_calls pg k m t a v f C LO HE PO DW Hv Hf) as (ss & K1 & _ & _ & _ & K3). exists ss. split; [exact K1|].
  destruct (K3 (from_storage w)) as (_ & _ & ->).
  destruct (C79_mixed (written_out pg m f) k m 0 t a v w f C HA LO HE (out_ok pg m f PO) (out_wb pg m C HE LO PO DW f) Hok Hv Hs Hf) as (ss' & M1 & M2).
  pose proof (calls_make pg m LO PO f f ltac:(lia) t a ss K1) as Hm.
  destruct (C79_calls (written_out pg m f) k m 0 t a v C LO HE (out_ok pg m f PO) (out_wb pg m C HE LO PO DW f) Hv) as (s2 & Q1 & Q2 & Q3 & Q4).
  destruct (Q4 f (from_storage w) Hf) as (_ & _ & R). rewrite R in M2. rewrite (Q2 ss Hm). rewrite (Q2 ss' M1) in M2. exact M2.
Qed.

(** And with a pointer-writing serializer the value is there, turned as the impls of its parts mean to: each impl is looked at alone, what
    it hands on being known by the values that come out ([attains]). *)
Theorem C92_value {P : Params} {L : Lexer} : forall pg by_hand by_proxy k m t a v w f,
  let E := pr_env pg in
  cfg_ok -> alloc_ok -> lexer_ok -> wf_env E -> program_ok pg -> delegates_well pg m ->
  all_attain pg by_hand by_proxy k m -> tracking k = true ->
  storage_ok w -> valid_input E any_header m t a v -> 0 < size_of E t -> (vdepth v < f)%nat ->
  match dx_serialize pg k m f t a (from_storage w) with
  | Ok p z =>
      let w' := z_sw z in
      exists v', turns pg by_hand by_proxy t v v' /\ repr E any_header (out_mem (read_base k w') w') t (read_base k w' + p) v'
  | Panic e z => e = PUser \/ e = PCapacity
  | Abort => alloc_failed
  | UB | OutOfFuel => False
  end.
Proof.
  intros pg bh bp k m t a v w f E C HA LO HE PO DW HT HTr Hok Hv Hs Hf.
  destruct (C92_delegating pg k m t a v w f C HA LO HE PO DW Hok Hv Hs Hf) as (ss & K1 & K2).
  destruct (dx_serialize _ _ _ _ _ _ _) as [p z|e z| | |]; auto; [|destruct K2 as [[[-> _]|[-> _]] _]; auto].
  destruct K2 as (_ & _ & _ & _ & HR). cbv zeta. destruct Hv as (Hw & Ha & Hr).
  destruct (proj1 (valid (written_out pg m f) bh bp k m 0 C HE LO (out_ok pg m f PO) (out_wb pg m C HE LO PO DW f)
    (all_out pg bh bp k m C HE LO PO DW HTr HT f) HTr (out_mem (read_base k (z_sw z)) (z_sw z)) (read_base k (z_sw z))) t a v Hr Hw Ha) as [G _].
  destruct (G ss _ _ (calls_make pg m LO PO f f ltac:(lia) t a ss K1) HR) as (v' & V1 & V2). exists v'. split; [|exact V2].
  exact (proj1 (turns_out pg bh bp m f) t v v' V1).
Qed.

(** ** Many values, whatever panics *)
Definition dx_calls_of {P : Params} {L : Lexer} (pg : program) (m : mem) (f : nat) (x : ty * N * val) (r : layout * N * list step) : Prop :=
  let '(t, a, _) := x in let '(l, a', ss) := r in l = layout_of (pr_env pg) t /\ a' = a /\ calls pg m f t a = Some ss.
(** The session is that of the calls the values make. *)
Lemma dx_is_session {P : Params} {L : Lexer} : forall pg k m f xs,
  let E := pr_env pg in
  cfg_ok -> lexer_ok -> wf_env E -> program_ok pg -> delegates_well pg m ->
  Forall (session_input E m f) xs ->
  exists rs, Forall2 (dx_calls_of pg m f) xs rs /\ Forall (root_in E m 0) rs /\
    forall z, dx_session pg k m f (map place_of xs) z = session k E m 0 rs z.
Proof.
  intros pg k m f xs E C LO HE PO DW Hxs.
  assert (X : exists rs, Forall2 (dx_calls_of pg m f) xs rs /\ Forall (root_in E m 0) rs /\
            forall z, dx_attempt_all pg k m f (map place_of xs) z = attempt_all k E m 0 rs z).
  { induction xs as [|[[t a] v] xs IH].
    - exists []. ands; constructor.
    - inversion Hxs as [|x y H1 H2]; subst. destruct H1 as (Hv & Hs & Hf). destruct (IH H2) as (rs & I1 & I2 & I3).
      destruct (C92_calls pg k m t a v f C LO HE PO DW Hv Hf) as (ss & K1 & _ & K2 & _ & K3).
      destruct Hv as (Hw & Ha & _).
      exists ((layout_of E t, a, ss) :: rs). ands.
      + constructor; [|exact I1]. cbn. auto.
      + constructor; [|exact I2]. unfold root_in. ands; [exact (wf_good C E HE t Hw)|exact Hs|exact Ha|exact K2].
      + cbn [map place_of fst dx_attempt_all attempt_all]. intros z.
        unfold bind at 1 4. destruct (ser_pos z) as [b z1|e z1| | |]; auto.
        unfold bind at 1 3. unfold catch. destruct (K3 z1) as (_ & -> & _). fold E.
        destruct (serialize_value_with _ _ _ z1) as [x z2|e z2| | |]; auto; unfold bind; rewrite I3; reflexivity. }
  destruct X as (rs & X1 & X2 & X3). exists rs. ands; auto.
  intros z. unfold dx_session, session, bind. rewrite X3. reflexivity.
Qed.
Theorem C92_session {P : Params} {L : Lexer} : forall pg k m f xs w,
  let E := pr_env pg in
  cfg_ok -> alloc_ok -> lexer_ok -> wf_env E -> program_ok pg -> delegates_well pg m -> storage_ok w ->
  Forall (session_input E m f) xs ->
  exists rs, Forall2 (dx_calls_of pg m f) xs rs /\ Forall (root_in E m 0) rs /\
    match dx_session pg k m f (map place_of xs) (from_storage w) with
    | Ok outs z =>
        let w' := z_sw z in
        attempts k E m (out_mem (read_base k w') w') (read_base k w') (s_pos (sw_s w)) rs outs (s_pos (sw_s w')) /\
        storage_ok w' /\ extends w w' /\
        (forall i, i < s_pos (sw_s w) -> s_buf (sw_s w') i = s_buf (sw_s w) i)
    | Abort => alloc_failed
    | Panic _ _ | UB | OutOfFuel => False
    end.
Proof.
  intros pg k m f xs w E C HA LO HE PO DW Hok Hxs.
  destruct (dx_is_session pg k m f xs C LO HE PO DW Hxs) as (rs & X1 & X2 & X4). exists rs. ands; auto.
  rewrite X4. exact (C57_resume k E m 0 rs w C HA HE Hok X2).
Qed.
Theorem C92_session_values {P : Params} {L : Lexer} : forall pg by_hand by_proxy k m f xs w outs z,
  let E := pr_env pg in
  cfg_ok -> alloc_ok -> lexer_ok -> wf_env E -> program_ok pg -> delegates_well pg m ->
  all_attain pg by_hand by_proxy k m -> tracking k = true -> storage_ok w ->
  Forall (session_input E m f) xs ->
  dx_session pg k m f (map place_of xs) (from_storage w) = Ok outs z ->
  Forall2 (fun x o => forall p, snd o = Some p -> exists v', turns pg by_hand by_proxy (fst (fst x)) (snd x) v' /\
      let B := read_base k (z_sw z) in
      repr E any_header (out_mem B (z_sw z)) (fst (fst x)) (B + p) v') xs outs.
Proof.
  intros pg bh bp k m f xs w outs z E C HA LO HE PO DW HT HTr Hok Hxs Hd.
  destruct (C92_session pg k m f xs w C HA LO HE PO DW Hok Hxs) as (rs & R1 & R2 & R3). rewrite Hd in R3. destruct R3 as (A & _).
  fold E in A |- *. cbv zeta in *. set (B := read_base k (z_sw z)) in *. set (Mo := out_mem B (z_sw z)) in *. clearbody B Mo.
  generalize dependent (s_pos (sw_s w)). generalize (s_pos (sw_s (z_sw z))). intros e b A. clear Hd R2. revert xs Hxs R1.
  induction A as [b|b l a ss rs outs e HR HM A IH|b l a ss rs outs e b' HP Hb A IH]; intros xs Hxs R1; inversion R1 as [|[[t a0] v] r xs' rs' Hc R1']; subst; [constructor| |];
    inversion Hxs as [|x xs0 Hx Hxs']; subst; destruct Hc as (-> & -> & Hc); destruct Hx as ((Hw & Ha & Hr) & Hs & Hf); (constructor; [|apply IH; assumption]).
  - intros p Hp. cbn [snd] in Hp. injection Hp as <-.
    destruct (proj1 (valid (written_out pg m f) bh bp k m 0 C HE LO (out_ok pg m f PO) (out_wb pg m C HE LO PO DW f)
      (all_out pg bh bp k m C HE LO PO DW HTr HT f) HTr Mo B) t a0 v Hr Hw Ha) as [G _].
    destruct (G ss _ _ (calls_make pg m LO PO f f ltac:(lia) t a0 ss Hc) HR) as (v' & V1 & V2). exists v'. split; [|exact V2].
    exact (proj1 (turns_out pg bh bp m f) t v v' V1).
  - intros p Hp. discriminate Hp.
Qed.

(** ** Over any storage *)
Theorem C92_calls_any_storage {P : Params} {L : Lexer} {St} (R : ra_impl St) : forall pg k m f xs,
  let E := pr_env pg in
  cfg_ok -> lexer_ok -> wf_env E -> program_ok pg -> delegates_well pg m ->
  Forall (session_input E m f) xs ->
  exists rs, Forall2 (dx_calls_of pg m f) xs rs /\ Forall (root_in E m 0) rs /\ Forall root_no_fields rs /\
    (forall z, g_dx_all R pg k m f (map place_of xs) z = g_client_all R k E m 0 rs z).
Proof.
  intros pg k m f xs E C LO HE PO DW Hxs.
  assert (X : exists rs, Forall2 (dx_calls_of pg m f) xs rs /\ Forall (root_in E m 0) rs /\ Forall root_no_fields rs /\
            forall z, g_dx_values R pg k m f (map place_of xs) z = g_client_values R k E m 0 rs z).
  { induction xs as [|[[t a] v] xs IH].
    - exists []. ands; constructor.
    - inversion Hxs as [|x y H1 H2]; subst. destruct H1 as (Hv & Hs & Hf). destruct (IH H2) as (rs & I1 & I2 & I4 & I3).
      destruct (C92_calls pg k m t a v f C LO HE PO DW Hv Hf) as (ss & K1 & _ & K2 & K3 & _).
      destruct Hv as (Hw & Ha & Hr).
      pose proof (proj1 (proj1 (g_main R (written_out pg m f) k m 0 C HE LO (out_ok pg m f PO)) t a v Hr Hw Ha) ss (calls_make pg m LO PO f f ltac:(lia) t a ss K1) f Hf) as K4.
      assert (K5 : geq (g_dx_data R pg k m f t a) (g_run_steps R k E m 0 a ss)).
      { eapply geq_trans; [exact (g_dx_is_mx pg m C HE LO PO DW R k f f (le_n f) t a v (conj Hr (conj Hw Ha)) Hf)|exact K4]. }
      exists ((layout_of E t, a, ss) :: rs). ands.
      + constructor; [|exact I1]. cbn. auto.
      + constructor; [|exact I2]. unfold root_in. ands; [exact (wf_good C E HE t Hw)|exact Hs|exact Ha|exact K2].
      + constructor; [|exact I4]. exact K3.
      + cbn [map place_of fst g_dx_values g_client_values]. apply geq_bind; [apply geq_svw; exact K5|intros p].
        apply geq_bind; [exact I3|intros; apply geq_refl]. }
  destruct X as (rs & X1 & X2 & X4 & X3). exists rs. ands; auto. intros z. unfold g_dx_all, g_client_all. apply geq_bind; [exact X3|intros; apply geq_refl].
Qed.
Lemma dx_plain {P : Params} {L : Lexer} pg m f xs rs : plain_program pg m -> Forall2 (dx_calls_of pg m f) xs rs -> Forall root_plain rs.
Proof.
  intros PP. induction 1 as [|[[t a] v] [[l a'] ss] xs rs Hc Hr IH]; constructor; [|exact IH].
  destruct Hc as (_ & _ & Hc). exact (calls_plain pg m PP f t a ss Hc).
Qed.
Theorem C92_any_storage {P : Params} {L : Lexer} {St} (R : ra_impl St) inv contents empties :
  cfg_ok -> keeps_contract (r_st R) inv contents empties -> reserve_keeps_pos (r_st R) inv ->
  forall pg k m f xs s, let E := pr_env pg in
  storage_for k R inv contents -> lexer_ok -> wf_env E -> program_ok pg -> delegates_well pg m -> plain_program pg m ->
  ready (r_st R) inv s -> Forall (session_input E m f) xs ->
  exists rs, Forall2 (dx_calls_of pg m f) xs rs /\
    match g_dx_all R pg k m f (map place_of xs) (g_from_storage s) with
    | Ok ps z =>
        let s' := gz_st z in
        let B := g_read_base R k s' in
        ps = roots_pos E (i_pos (r_st R) s) rs /\
        i_pos (r_st R) s' = roots_end E (i_pos (r_st R) s) rs /\
        ready (r_st R) inv s' /\
        same_below (i_pos (r_st R) s) (contents s') (contents s) /\
        regions k E m (g_out_mem (r_st R) contents B s') B (i_pos (r_st R) s) rs
    | Panic e z =>
        refused_within (r_st R) inv (i_pos (r_st R) s) (roots_end E (i_pos (r_st R) s) rs) e /\
        ready (r_st R) inv (gz_st z) /\
        i_pos (r_st R) s <= i_pos (r_st R) (gz_st z) /\
        same_below (i_pos (r_st R) s) (contents (gz_st z)) (contents s)
    | Abort => True
    | UB | OutOfFuel => False
    end.
Proof.
  intros C K KP pg k m f xs s E HS LO HE PO DW PP Hr Hxs.
  destruct (C92_calls_any_storage R pg k m f xs C LO HE PO DW Hxs) as (rs & R1 & R2 & R3 & R4).
  exists rs. ands; auto. rewrite R4.
  exact (C89_custom_impls_any_storage R inv contents empties C K KP k E m HS HE 0 rs s Hr R2 (dx_plain pg m f xs rs PP R1)).
Qed.

(** What is in the output as a value, in place and wherever it is moved to: the words to be adjusted are determined by the values. *)
Lemma dx_values_at {P : Params} {L : Lexer} : forall pg by_hand by_proxy k m f xs rs Mo B,
  let E := pr_env pg in
  cfg_ok -> lexer_ok -> wf_env E -> program_ok pg -> delegates_well pg m ->
  all_attain pg by_hand by_proxy k m -> tracking k = true -> Forall (session_input E m f) xs -> Forall2 (dx_calls_of pg m f) xs rs ->
  forall cur, regions k E m Mo B cur rs ->
  Forall2 (fun x p => exists v', turns pg by_hand by_proxy (fst (fst x)) (snd x) v' /\
      repr E any_header Mo (fst (fst x)) (B + p) v') xs (roots_pos E cur rs).
Proof.
  intros pg bh bp k m f xs rs Mo B E C LO HE PO DW HT HTr Hxs R1.
  induction R1 as [|[[t a] v] [[l a'] ss] xs' rs' Hc R1 IH]; intros cur RG; [constructor|].
  destruct Hc as (-> & -> & Hc). inversion Hxs as [|? ? Hx Hxs']; subst. destruct Hx as ((Hw & Ha & Hr) & Hs & Hf).
  cbn [roots_pos regions] in *. destruct RG as [RG1 RG2]. constructor; [|apply IH; assumption]. cbn [fst snd].
  destruct (proj1 (valid (written_out pg m f) bh bp k m 0 C HE LO (out_ok pg m f PO) (out_wb pg m C HE LO PO DW f)
    (all_out pg bh bp k m C HE LO PO DW HTr HT f) HTr Mo B) t a v Hr Hw Ha) as [G _].
  destruct (G ss _ _ (calls_make pg m LO PO f f ltac:(lia) t a ss Hc) RG1) as (v' & V1 & V2). exists v'. split; [|exact V2].
  exact (proj1 (turns_out pg bh bp m f) t v v' V1).
Qed.
Theorem C92_load {P : Params} {L : Lexer} {St} (R : ra_impl St) inv contents empties :
  cfg_ok -> keeps_contract (r_st R) inv contents empties -> reserve_keeps_pos (r_st R) inv ->
  forall pg by_hand by_proxy k m f xs s ps z, let E := pr_env pg in
  storage_for k R inv contents -> lexer_ok -> wf_env E -> program_ok pg -> delegates_well pg m -> plain_program pg m ->
  all_attain pg by_hand by_proxy k m -> tracking k = true ->
  ready (r_st R) inv s -> Forall (session_input E m f) xs ->
  g_dx_all R pg k m f (map place_of xs) (g_from_storage s) = Ok ps z ->
  let b := i_pos (r_st R) s in
  let len := i_pos (r_st R) (gz_st z) in
  let B := g_read_base R k (gz_st z) in
  let M := g_out_mem (r_st R) contents B (gz_st z) in
  let there Mo A := Forall2 (fun x p => exists v', turns pg by_hand by_proxy (fst (fst x)) (snd x) v' /\
      repr E any_header Mo (fst (fst x)) (A + p) v') xs ps in
  there M B /\
  exists rs, Forall2 (dx_calls_of pg m f) xs rs /\
    relocatable k E m M B b len rs (roots_words E b rs) /\
    forall B', 0 < B' -> (MVA | B') -> B' + len < umod -> there (load M B B' len (map (N.add B) (roots_words E b rs))) B'.
Proof.
  intros C K KP pg bh bp k m f xs s ps z E HS LO HE PO DW PP HA HT Hr Hxs Hg b len B M there.
  destruct (C92_calls_any_storage R pg k m f xs C LO HE PO DW Hxs) as (rs & R1 & R2 & R3 & R4). pose proof (dx_plain pg m f xs rs PP R1) as R5.
  pose proof Hg as Hg'. rewrite R4 in Hg'. fold E in Hg'.
  pose proof (C89_custom_impls_any_storage R inv contents empties C K KP k E m HS HE 0 rs s Hr R2 R5) as HH. rewrite Hg' in HH.
  destruct HH as (H1 & _ & _ & _ & H5). fold b B M in H1, H5.
  destruct (C91_hand_written R inv contents empties C K KP k E m HS HE HT 0 rs s ps z Hr R2 R5 R3 Hg') as [_ HR]. fold b len B M in HR. unfold there. rewrite H1.
  split; [exact (dx_values_at pg bh bp k m f xs rs M B C LO HE PO DW HA HT Hxs R1 b H5)|].
  exists rs. split; [exact R1|]. split; [exact HR|]. intros B' D1 D2 D3. destruct HR as (Q3 & Q4 & Q5).
  pose proof (load_moves M B B' len (roots_words E b rs) C D3 Q3 (fun q Hq => proj2 (Q4 q Hq))) as HM.
  exact (dx_values_at pg bh bp k m f xs rs _ B' C LO HE PO DW HA HT Hxs R1 b (Q5 _ B' D1 D2 ltac:(lia) HM)).
Qed.

(** ** A hand-written impl that hands a derived struct on, which has a proxy and a hand-written impl of its own
    (PropMixed.v) inside:
    struct Wrap { inner: Outer, extra: u64 }
    impl Serialize for Wrap { fn serialize_data(..) { self.inner.serialize_data(serializer); overwrite extra with 7 } }
    The value is a Box<Wrap>. *)
From Coq Require Import String.
From Verif Require Import MemFacts PropStorage PropSerialize Demo WitnessSerialize WitnessDerive.
#[local] Existing Instance ascii_lexer.
Definition t_wrap := TStruct (mkLayout 32 8) [(0, TNamed 0); (24, t_u64)].
Definition deleg_env : tenv := fun id => match id with 2%nat => Some t_wrap | _ => mixed_env id end.
(** The Outer at [a]. *)
Definition read_outer (m : mem) (a : N) : option val :=
  match @read_int demo m a 8, @read_word demo m (a + 8), @read_word demo m (a + 16) with
  | Some n, Some p, Some q =>
      match @read_int demo m p 8, @read_int demo m q 8 with
      | Some x, Some y => Some (VStruct [VPrim n; VBox (VPrim x); VStruct [VBox (VPrim y)]])
      | _, _ => None
      end
  | _, _, _ => None
  end.
Definition wrap_impl (m : mem) (a : N) : list step :=
  match read_outer m a with
  | Some v => [SField 0 (TNamed 0) v; SOver 24 u64_layout (bytes_src (w64 7))]
  | None => []
  end.
Definition deleg_prog : program := {|
  pr_env := deleg_env;
  pr_derived := fun id => match id with 0%nat => Some outer_decl | _ => None end;
  pr_hand := fun id => match id with 1%nat => Some hand_impl | 2%nat => Some wrap_impl | _ => None end;
  pr_with := fun _ _ => proxy_impl |}.
Definition deleg_mem : mem := chunks
  [ (4096, w64 8192);
    (8192, w64 11 ++ w64 12288 ++ w64 12296 ++ w64 5);
    (12288, w64 21 ++ w64 31) ].
Definition outer_val (n x y : N) : val := VStruct [VPrim n; VBox (VPrim x); VStruct [VBox (VPrim y)]].
Definition deleg_val : val := VBox (VStruct [outer_val 11 21 31; VPrim 5]).
(** What the impls are meant to do. *)
Definition to_7_99 (id : nat) (v v' : val) : Prop :=
  match id with
  | 2%nat => exists n x h e, v = VStruct [VStruct [n; x; h]; e] /\ v' = VStruct [VStruct [n; x; VStruct [VBox (VPrim 99)]]; VPrim 7]
  | _ => v' = VStruct [VBox (VPrim 99)]
  end.

Lemma deleg_wf : @wf_env demo deleg_env.
Proof.
  assert (W1 : @wf_ty demo deleg_env t_u64) by (apply W_prim; gl).
  assert (W2 : @wf_ty demo deleg_env (TBox t_u64)) by (apply W_box; [exact W1|le]).
  intros [|[|[|id]]] d H; cbn in H; try discriminate; injection H as <-; (split; [|exact Logic.I]).
  - apply W_struct; [gl| |].
    + repeat (apply FO_cons; [num|num|num|intros o u Hin; repeat destruct Hin as [Hin|Hin]; try contradiction; injection Hin as <- <-; vm_compute; first [left; discriminate|right; discriminate]|]).
      apply FO_nil.
    + intros o t Hin. repeat destruct Hin as [Hin|Hin]; try contradiction; injection Hin as <- <-; auto. eapply W_named. reflexivity.
  - apply W_struct; [gl| |].
    + apply FO_cons; [num|num|num|intros o u []|apply FO_nil].
    + intros o t Hin. repeat destruct Hin as [Hin|Hin]; try contradiction; injection Hin as <- <-; auto.
  - apply W_struct; [gl| |].
    + repeat (apply FO_cons; [num|num|num|intros o u Hin; repeat destruct Hin as [Hin|Hin]; try contradiction; injection Hin as <- <-; vm_compute; first [left; discriminate|right; discriminate]|]).
      apply FO_nil.
    + intros o t Hin. repeat destruct Hin as [Hin|Hin]; try contradiction; injection Hin as <- <-; auto. eapply W_named. reflexivity.
Qed.
Lemma dbox_repr m a v : @repr demo deleg_env any_header m (TBox t_u64) a v ->
  exists p x, v = VBox (VPrim x) /\ @read_word demo m a = Some p /\ p + 8 <= @umod demo /\ @read_int demo m p 8 = Some x.
Proof.
  intros H. inversion H as [|t a' p v' H1 H2 H3 H4| | | | | |]; subst. inversion H4 as [l ok a1 n R1 R2| | | | | | |]; subst. exists p, n.
  destruct H2 as (_ & _ & H2). auto.
Qed.
Lemma hand_repr m a v : @repr demo deleg_env any_header m (TNamed 1) a v -> exists v0, v = VStruct [v0] /\ @repr demo deleg_env any_header m (TBox t_u64) a v0.
Proof.
  intros Hr. inversion Hr as [| | | | | | |id' d a' v' Hid Hd]; subst. cbn in Hid. injection Hid as <-.
  inversion Hd as [| | | | |l fs a' vs Hf| |]; subst. inversion Hf as [|off t fs' a' v0 vs' Hb Hn]; subst. rewrite N.add_0_r in Hb.
  inversion Hn; subst. eauto.
Qed.
Lemma outer_repr m a v : @repr demo deleg_env any_header m (TNamed 0) a v -> read_outer m a = Some v /\ exists n x y, v = outer_val n x y.
Proof.
  intros Hr. inversion Hr as [| | | | | | |id' d a' v' Hid Hd]; subst. cbn in Hid. injection Hid as <-.
  inversion Hd as [| | | | |l fs a' vs Hf| |]; subst. inversion Hf as [|off t fs' a' v0 vs' H1 Hf2]; subst. rewrite N.add_0_r in H1.
  inversion Hf2 as [|off t fs' a' v1 vs1 H2 Hf3]; subst. inversion Hf3 as [|off t fs' a' v2 vs2 H3 Hf4]; subst. inversion Hf4; subst.
  inversion H1 as [l ok a1 n R1 R2| | | | | | |]; subst. destruct (dbox_repr _ _ _ H2) as (p & x & -> & P1 & _ & P2).
  destruct (hand_repr _ _ _ H3) as (v3 & -> & H4). destruct (dbox_repr _ _ _ H4) as (q & y & -> & Q1 & _ & Q2).
  split; [|exists n, x, y; reflexivity]. unfold read_outer. cbn [u64_layout l_size] in R1. rewrite R1, P1, Q1, P2, Q2. reflexivity.
Qed.
Lemma wrap_repr m a v : @repr demo deleg_env any_header m (TNamed 2) a v ->
  exists v0 e, v = VStruct [v0; VPrim e] /\ @repr demo deleg_env any_header m (TNamed 0) a v0.
Proof.
  intros Hr. inversion Hr as [| | | | | | |id' d a' v' Hid Hd]; subst. cbn in Hid. injection Hid as <-.
  inversion Hd as [| | | | |l fs a' vs Hf| |]; subst. inversion Hf as [|off t fs' a' v0 vs' H1 Hf2]; subst. rewrite N.add_0_r in H1.
  inversion Hf2 as [|off t fs' a' v1 vs1 H2 Hf3]; subst. inversion Hf3; subst. inversion H2 as [l ok a1 n R1 R2| | | | | | |]; subst. eauto.
Qed.
Lemma deleg_proxied w t : proxied deleg_prog w t -> t = TBox t_u64.
Proof.
  intros (id & i & l & fs & dfs & n & f & off & H1 & H2 & H3 & H4 & H5 & H6).
  destruct id as [|[|[|id]]]; unfold impl_for in H1; cbn in H1; try discriminate. injection H1 as <-. cbn in H2. injection H2 as <- <-.
  cbn in H3. injection H3 as <-. destruct n as [|[|[|n]]]; cbn in H4; [| | |destruct n; discriminate]; injection H4 as <-.
  - destruct H5 as (pre & x & post & p & H & _). destruct pre; discriminate.
  - injection H6 as <- <-. reflexivity.
  - destruct H5 as (pre & x & post & p & H & _). destruct pre; discriminate.
Qed.
Lemma hand_boxes a v : @repr demo deleg_env any_header deleg_mem (TNamed 1) a v -> exists p, hand_impl deleg_mem a = [SPush 0 u64_layout p 1 [SOver 0 u64_layout (bytes_src (w64 99))]] /\ p + 8 <= @umod demo.
Proof.
  intros Hr. destruct (hand_repr _ _ _ Hr) as (v0 & -> & Hb). destruct (dbox_repr _ _ _ Hb) as (p & x & -> & Hp & Hu & _). exists p. split; [|exact Hu].
  unfold hand_impl. rewrite Hp. reflexivity.
Qed.

Theorem C92_hypotheses :
  @lexer_ok ascii_lexer /\ @wf_env demo deleg_env /\ program_ok deleg_prog /\
  delegates_well (P := demo) deleg_prog deleg_mem /\ plain_program (P := demo) deleg_prog deleg_mem /\
  all_attain (P := demo) deleg_prog to_7_99 (fun _ _ => eq) Complete deleg_mem /\
  @valid_input demo deleg_env any_header deleg_mem (TBox (TNamed 2)) 4096 deleg_val /\ (vdepth deleg_val < 10)%nat /\
  (forall v', turns (P := demo) deleg_prog to_7_99 (fun _ _ => eq) (TBox (TNamed 2)) deleg_val v' -> v' = VBox (VStruct [outer_val 11 21 99; VPrim 7])).
Proof.
  assert (TW : forall v v', turns (P := demo) deleg_prog to_7_99 (fun _ _ => eq) (TNamed 0) v v' -> forall n x h, v = VStruct [n; x; h] ->
    v' = VStruct [n; x; VStruct [VBox (VPrim 99)]]).
  { intros v v' HU n x h ->. inversion HU as [| | | | | | | | |id h0 w w' HI|id i l fs dfs cs vs vs' HI HD Hd Hw Hf|id i l d vss j fs vs vs' HI HD Hd Hf]; subst.
    - unfold impl_for in HI. cbn in HI. discriminate HI.
    - unfold impl_for in HI. cbn in HI. injection HI as <-. cbn in HD. injection HD as <- <-. cbn in Hd. injection Hd as <-.
      destruct (two_callees _ Hw) as (w & ->). inversion Hf as [|? ? ? ? ? v1 ? vs1 T1 Hf2|]; subst. inversion T1; subst.
      inversion Hf2 as [| |? ? ? ? ? ? v2 ? vs2 T2 Hf3]; subst. inversion Hf3 as [|? ? ? ? ? v3 ? vs3 T3 Hf4|]; subst. inversion Hf4; subst.
      inversion T3 as [| | | | | | | | |id h0 w0 w' HI HB|id i l fs dfs cs vs vs' HI|id i l d vss j fs vs vs' HI]; subst;
        unfold impl_for in HI; cbn in HI; try discriminate HI. cbn in HB. subst. reflexivity. }
  assert (HO : forall v', turns (P := demo) deleg_prog to_7_99 (fun _ _ => eq) (TBox (TNamed 2)) deleg_val v' -> v' = VBox (VStruct [outer_val 11 21 99; VPrim 7])).
  { intros v' HU. inversion HU as [| |t0 w w' Hz HT| |t0 w Hz| | | | | | |]; subst; [|vm_compute in Hz; discriminate Hz].
    inversion HT as [| | | | | | | | |id h0 w0 w1 HI HB|id i l fs dfs cs vs vs' HI|id i l d vss j fs vs vs' HI]; subst; unfold impl_for in HI; cbn in HI; try discriminate HI.
    cbn in HB. destruct HB as (n & x & h & e & HB & ->). unfold outer_val in HB. injection HB as <- <- <- <-. reflexivity. }
  ands; [exact ascii_lexer_ok|exact deleg_wf| | | | | |cbn; lia|exact HO].
  - intros [|[|[|id]]] d H; cbn in H; try discriminate; injection H as <-; try exact Logic.I.
    unfold impl_for; cbn. eapply F_struct.
    * reflexivity.
    * split.
      -- intros f a Hf Ha m Hm. cbn in Hf. repeat destruct Hf as [<-|Hf]; cbn in Ha; try contradiction.
         repeat destruct Ha as [<-|Ha]; cbn in Hm; try contradiction; injection Hm as <-; reflexivity.
      -- legal_named [id_ "val_n"; id_ "val_x"; id_ "hand"].
    * reflexivity.
    * vm_compute. reflexivity.
    * intros f Hf. cbn in Hf. repeat destruct Hf as [<-|Hf]; try contradiction.
      -- exists CSerialize. constructor. intros a [].
      -- exists (CWith (path_ "Proxy")). constructor. exists [doc_attr], (ser_with_attr (path_ "Proxy")), [], (path_ "ser_with").
         ands; try reflexivity. intros b [<-|[]]. vm_compute. discriminate.
      -- exists CSerialize. constructor. intros a [].
  - split.
    + intros [|[|[|id]]] h H; unfold impl_for in H; cbn in H; try discriminate; injection H as <-; intros a v Hr Ha.
      * destruct (hand_boxes a v Hr) as (p & -> & Hu).
        constructor; [|intros ? ? []|constructor]. apply OK_push; [le|dv|dv|apply slice_8; exact Hu|].
        constructor; [|intros ? ? []|constructor]. apply OK_over; [gl|cbn; lia|le|dv|dv].
      * destruct (wrap_repr _ _ _ Hr) as (v0 & e & -> & H0). destruct (outer_repr _ _ _ H0) as (HR & _). unfold wrap_impl. rewrite HR.
        constructor; [|intros s' i [<-|[]] T1 T2; unfold touched in T1, T2; cbn [touch] in T1, T2; change (size_of (P := demo) (pr_env deleg_prog) (TNamed 0)) with 24 in T1; lia|].
        -- apply OK_field; [eapply W_named; reflexivity|rewrite N.add_0_r; exact H0|cbn [vdepth map list_max fold_right]; lia|le|dv|dv].
        -- constructor; [|intros ? ? []|constructor]. apply OK_over; [gl|cbn; lia|le|dv|dv].
    + intros w t Hw. rewrite (deleg_proxied w t Hw). intros a v Hr Ha. destruct (dbox_repr _ _ _ Hr) as (p & x & -> & Hp & Hu & _). cbn [pr_with deleg_prog]. unfold proxy_impl. rewrite Hp.
      constructor; [|intros ? ? []|constructor]. apply OK_plain; [le|dv|dv|apply slice_8; exact Hu].
  - split.
    + intros [|[|[|id]]] h a H; unfold impl_for in H; cbn in H; try discriminate; injection H as <-.
      * unfold hand_impl. destruct (read_word deleg_mem a); reflexivity.
      * unfold wrap_impl. destruct (read_outer deleg_mem a); reflexivity.
    + intros w t a. cbn [pr_with deleg_prog]. unfold proxy_impl. destruct (read_word deleg_mem a); reflexivity.
  - assert (W64 : forall Mo A n, (forall i, i < 8 -> Mo (A + i) = bytes_src (w64 n) i) -> n < 256 -> @read_int demo Mo A 8 = Some n).
    { intros Mo A n HM Hn. apply (@read_word_src demo); [change (@umod demo) with 18446744073709551616; lia|exact HM]. }
    split.
    + intros [|[|[|id]]] h H; unfold impl_for in H; cbn in H; try discriminate; injection H as <-; intros a v Mo B p Hr Ha HX.
      * destruct (hand_boxes a v Hr) as (q & Hq & Hu). rewrite Hq in HX. inversion HX as [? ? ? ? _ E1]; subst.
        specialize (E1 _ (or_introl eq_refl)). inversion E1 as [? ? ? ? ? ? ? q' J1 J2| | | | |]; subst. unfold points in J1. cbn [tracking] in J1. destruct J1 as [J1 J3].
        rewrite N.add_0_r in J1. inversion J2 as [? ? ? ? _ E2]; subst. specialize (E2 _ (or_introl eq_refl)). inversion E2 as [| | |? ? ? ? ? M1 M2| |]; subst. specialize (M1 eq_refl).
        eexists. split; [reflexivity|]. eapply R_named; [reflexivity|]. apply R_struct. constructor; [|constructor].
        rewrite N.add_0_r. apply (R_box (P := demo) _ _ _ _ _ (B + q')); [exact J1|apply J3; discriminate|exact Logic.I|].
        apply R_prim; [|reflexivity]. apply W64; [|reflexivity].
        intros i Hi. rewrite <- N.add_assoc. specialize (M1 i Hi). rewrite N.add_0_r in M1. exact M1.
      * destruct (wrap_repr _ _ _ Hr) as (v0 & e & -> & H0). destruct (outer_repr _ _ _ H0) as (HR & n & x & y & Hv0). unfold wrap_impl in HX. rewrite HR in HX.
        inversion HX as [? ? ? ? _ E1]; subst. pose proof (E1 _ (or_introl eq_refl)) as E2. specialize (E1 _ (or_intror (or_introl eq_refl))).
        inversion E2 as [| | | |? ? ? ? ? v' T1 T2|]; subst. inversion E1 as [| | |? ? ? ? ? M1 M2| |]; subst. specialize (M1 eq_refl).
        rewrite (TW _ v' T1 _ _ _ eq_refl) in T2.
        exists (VStruct [VStruct [VPrim n; VBox (VPrim x); VStruct [VBox (VPrim 99)]]; VPrim 7]). split; [cbn; unfold outer_val; eauto 10|].
        eapply R_named; [reflexivity|]. apply R_struct. constructor; [replace (B + p + 0) with (B + (p + 0)) by lia; exact T2|]. constructor; [|constructor].
        apply R_prim; [|reflexivity]. apply W64; [|reflexivity]. intros i Hi. replace (B + p + 24 + i) with (B + (p + 24 + i)) by lia. exact (M1 i Hi).
    + intros w t Hw. rewrite (deleg_proxied w t Hw). intros a v Mo B p Hr Ha HX. inversion Hr as [|t' a' q v' Hq Hv Hh Hc| | | | | |]; subst.
      inversion Hc as [? ? ? n' N1 N2| | | | | | |]; subst. cbn [pr_with deleg_prog] in HX. unfold proxy_impl in HX. rewrite Hq in HX.
      inversion HX as [? ? ? ? _ E1]; subst. specialize (E1 _ (or_introl eq_refl)). inversion E1 as [|? ? ? ? ? ? q' J1 J2| | | |]; subst. unfold points in J1. cbn [tracking] in J1. destruct J1 as [J1 J3].
      rewrite N.add_0_r in J1. eexists. split; [reflexivity|].
      apply (R_box (P := demo) _ _ _ _ _ (B + q')); [exact J1|apply J3; discriminate|exact Logic.I|].
      apply R_prim; [|reflexivity]. rewrite <- N1. apply (read_int_ext (P := demo)). intros j Hj. rewrite <- N.add_assoc. apply J2; [lia|exact Hj].
  - split; [apply W_box; [eapply W_named; reflexivity|le]|]. split; [le|].
    apply (R_box (P := demo) _ _ _ _ _ 8192); [rd|vok|exact Logic.I|].
    eapply R_named; [reflexivity|]. apply R_struct. constructor; [|constructor; [apply R_prim; [rd|reflexivity]|constructor]].
    eapply R_named; [reflexivity|]. apply R_struct.
    constructor; [apply R_prim; [rd|reflexivity]|].
    constructor; [apply (R_box (P := demo) _ _ _ _ _ 12288); [rd|vok|exact Logic.I|apply R_prim; [rd|reflexivity]]|].
    constructor; [|constructor]. eapply R_named; [reflexivity|]. apply R_struct. constructor; [|constructor].
    apply (R_box (P := demo) _ _ _ _ _ 12296); [rd|vok|exact Logic.I|apply R_prim; [rd|reflexivity]].
Qed.

(** Wrap's impl, the generated code, the proxy and Hand's impl run, with every kind of serializer; and over another storage the same. *)
Definition deleg_inputs : list (ty * N * val) := [(TBox (TNamed 2), 4096, deleg_val); (TNamed 2, 8192, VStruct [outer_val 11 21 31; VPrim 5])].
Theorem C92_witness : forall k,
  match dx_serialize (P := demo) deleg_prog k deleg_mem 10 (TBox (TNamed 2)) 4096 (from_storage demo_w) with
  | Ok p z => (p, s_pos (sw_s (z_sw z)),
       map (fun i => @read_word demo (s_buf (sw_s (z_sw z))) (8 * N.of_nat i)) [0;1;2;3;4;5;6]%nat) =
     (let b := s_ptr (sw_s (z_sw z)) in
     match k with
     | Complete => (0, 56, map Some [b + 8; 11; b + 40; b + 48; 7; 21; 99])
     | PtrOffset => (0, 56, map Some [8; 11; 40; 48; 5; 21; 31])
     | _ => (0, 56, map Some [8192; 11; 12288; 12296; 5; 21; 31])
     end)
  | _ => False
  end /\
  match @g_dx_all demo _ _ gs_storage deleg_prog k deleg_mem 10 (map place_of deleg_inputs) (g_from_storage (mkFixed 8 no_mem)) with
  | Ok ps z => ps = [8; 64] /\ fx_pos (gz_st z) = 112 /\
      let rd i := @read_word demo (fx_buf (gz_st z)) (8 + 8 * N.of_nat i) in
      map rd [0;1;2;3;4;5;6;7;8;9;10;11;12]%nat =
      (let b := r_as_ptr gs_storage (gz_st z) in
      match k with
      | Complete => map Some [b + 16; 11; b + 48; b + 56; 7; 21; 99; 11; b + 96; b + 104; 7; 21; 99]
      | PtrOffset => map Some [16; 11; 48; 56; 5; 21; 31; 11; 96; 104; 5; 21; 31]
      | _ => map Some [8192; 11; 12288; 12296; 5; 21; 31; 11; 12288; 12296; 5; 21; 31]
      end)
  | _ => False
  end.
Proof.
  intros k; split; [destruct k; vm_compute; reflexivity|].
  destruct k; vm_compute; (split; [reflexivity|]; split; [reflexivity|reflexivity]).
Qed.
(** The calls of the boxed Wrap: those of all its parts, written out. *)
Theorem C92_witness_calls :
  calls (P := demo) deleg_prog deleg_mem 10 (TBox (TNamed 2)) 4096 =
  Some [SPush 0 (mkLayout 32 8) 8192 1
         [SPushPlain 8 u64_layout 12288 1;
          SPush 16 u64_layout 12296 1 [SOver 0 u64_layout (bytes_src (w64 99))];
          SOver 24 u64_layout (bytes_src (w64 7))]].
Proof. vm_compute. reflexivity. Qed.
