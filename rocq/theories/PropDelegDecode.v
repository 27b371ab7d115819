(** * PropDelegDecode: the outputs of the serializers that write no pointers, for programs whose impls hand fields on (C93). *)
From Coq Require Import Arith.
From Verif Require Import Base Types Storage Serializer Serialize Client Spec ClientSpec ArithFacts MemFacts TypeFacts SerFacts SerMain SerValue ClientFacts
  PropClient PropResume Derive DeriveSpec Mixed MixedFacts PropMixed MixedValid PropMixedValue PropMixedSession MixedDecode PropMixedDecode
  GenStorage GenSpec PropGen GenSerializer GenSerSpec GenClient GenClientSpec GenMixed GenMixedFacts PropGenClient PropGenSer Deleg DelegFacts DelegValid DelegDecode PropDeleg.
From Coq Require Import ZifyBool ZifyNat ZifyN.
Local Open Scope N_scope.

Lemma dx_read_root {P : Params} {L : Lexer} : forall pg by_hand by_proxy by_type by_path plan k m t a v F ss Mo b f,
  let E := pr_env pg in
  cfg_ok -> lexer_ok -> wf_env E -> program_ok pg -> delegates_well pg m ->
  plan_ok pg plan -> all_read_parts pg by_hand by_proxy by_type by_path m -> tracking k = false ->
  valid_input E any_header m t a v -> calls pg m F t a = Some ss -> (vdepth v < f)%nat ->
  region k E m Mo 0 (push_start b (layout_of E t)) a (size_of E t) (push_end b (layout_of E t) 1) ss ->
  exists v', turns pg by_hand by_proxy t v v' /\ dx_decode_root pg by_type by_path plan Mo f t (push_start b (layout_of E t)) = Some v'.
Proof.
  intros pg bh bp bt bpa plan k m t a v F ss Mo b f E C LO HE PO DW HP HA HT (Hw & Ha & Hv) Hc Hf HR.
  destruct (dx_reads pg bh bp bt bpa plan k m C HE LO PO DW HA HP HT Mo 0 F t a v ss _ _ f Hv Hw Ha Hf Hc HR) as (v' & U & V).
  exists v'. split; [exact U|]. unfold dx_decode_root. fold E.
  replace (round_up (push_start b (layout_of E t) + size_of E t) VA) with (push_end b (layout_of E t) 1).
  2:{ unfold push_end, size_of. rewrite N.mul_1_r. reflexivity. }
  change (mem_from Mo 0) with (fun i => Mo (0 + i)) in V. change (fun i => Mo (0 + i)) with Mo in V. fold E in V. rewrite V. reflexivity.
Qed.

(** PureCopy and PosTracking.  If the author of every hand-written impl has a reader that is right provided the readers of what the impl hands on
    are ([all_read_parts]), the whole output can be read in order, without following any pointer: it gives the value
    serialized, with the parts implemented by hand turned into what they are meant to be. *)
Theorem C93_value {P : Params} {L : Lexer} : forall pg by_hand by_proxy by_type by_path plan k m t a v w f p z,
  let E := pr_env pg in
  cfg_ok -> alloc_ok -> lexer_ok -> wf_env E -> program_ok pg -> delegates_well pg m ->
  plan_ok pg plan -> all_read_parts pg by_hand by_proxy by_type by_path m -> tracking k = false ->
  storage_ok w -> valid_input E any_header m t a v -> 0 < size_of E t -> (vdepth v < f)%nat ->
  dx_serialize pg k m f t a (from_storage w) = Ok p z ->
  forall f', (vdepth v < f')%nat ->
  exists v', turns pg by_hand by_proxy t v v' /\ dx_decode_root pg by_type by_path plan (out_mem 0 (z_sw z)) f' t p = Some v'.
Proof.
  intros pg bh bp bt bpa plan k m t a v w f p z E C HAl LO HE PO DW HP HA HT Hok Hv Hs Hf Hr f' Hf'.
  destruct (C92_delegating pg k m t a v w f C HAl LO HE PO DW Hok Hv Hs Hf) as (ss & Hm & HC). rewrite Hr in HC.
  destruct HC as (-> & _ & _ & _ & HR). assert (RB : read_base k (z_sw z) = 0) by (destruct k; try reflexivity; discriminate HT).
  rewrite RB in HR. exact (dx_read_root pg bh bp bt bpa plan k m t a v f ss _ _ f' C LO HE PO DW HP HA HT Hv Hm Hf' HR).
Qed.

(** Implementations whose readers give back the value as it was: the output reads back as the value itself. *)
Theorem C93_same {P : Params} {L : Lexer} : forall pg by_type by_path plan k m t a v w f p z,
  let E := pr_env pg in
  cfg_ok -> alloc_ok -> lexer_ok -> wf_env E -> program_ok pg -> delegates_well pg m ->
  plan_ok pg plan -> all_read_parts pg (fun _ => eq) (fun _ _ => eq) by_type by_path m -> tracking k = false ->
  storage_ok w -> valid_input E any_header m t a v -> 0 < size_of E t -> (vdepth v < f)%nat ->
  dx_serialize pg k m f t a (from_storage w) = Ok p z ->
  forall f', (vdepth v < f')%nat -> dx_decode_root pg by_type by_path plan (out_mem 0 (z_sw z)) f' t p = Some v.
Proof.
  intros pg bt bpa plan k m t a v w f p z E C HAl LO HE PO DW HP HA HT Hok Hv Hs Hf Hr f' Hf'.
  destruct (C93_value pg (fun _ => eq) (fun _ _ => eq) bt bpa plan k m t a v w f p z C HAl LO HE PO DW HP HA HT Hok Hv Hs Hf Hr f' Hf') as (v' & U & V).
  pose proof (proj1 (turns_same pg) t v v' U) as Eq. rewrite <- Eq in V. exact V.
Qed.

(** A session (C92_session): every value whose call returned is read from the position it returned, whatever panicked before or after. *)
Definition dx_value_read {P : Params} {L : Lexer} pg by_hand by_proxy by_type by_path plan (Mo : mem) (x : ty * N * val) (p : N) : Prop :=
  forall f, (vdepth (snd x) < f)%nat ->
  exists v', turns pg by_hand by_proxy (fst (fst x)) (snd x) v' /\ dx_decode_root pg by_type by_path plan Mo f (fst (fst x)) p = Some v'.
Theorem C93_session {P : Params} {L : Lexer} : forall pg by_hand by_proxy by_type by_path plan k m f xs w outs z,
  let E := pr_env pg in
  cfg_ok -> alloc_ok -> lexer_ok -> wf_env E -> program_ok pg -> delegates_well pg m ->
  plan_ok pg plan -> all_read_parts pg by_hand by_proxy by_type by_path m -> tracking k = false ->
  storage_ok w -> Forall (session_input E m f) xs ->
  dx_session pg k m f (map place_of xs) (from_storage w) = Ok outs z ->
  Forall2 (fun x o => forall p, snd o = Some p -> dx_value_read pg by_hand by_proxy by_type by_path plan (out_mem 0 (z_sw z)) x p) xs outs.
Proof.
  intros pg bh bp bt bpa plan k m f xs w outs z E C HAl LO HE PO DW HP HA HT Hok Hxs Hr.
  destruct (C92_session pg k m f xs w C HAl LO HE PO DW Hok Hxs) as (rs & R1 & R2 & R3). rewrite Hr in R3.
  destruct R3 as (A & _). assert (RB : read_base k (z_sw z) = 0) by (destruct k; try reflexivity; discriminate HT). rewrite RB in A.
  remember (s_pos (sw_s w)) as b eqn:Eb. remember (s_pos (sw_s (z_sw z))) as e eqn:Ee. clear Eb Ee Hr R2. revert xs Hxs R1.
  induction A as [b|b l a ss rs outs e HR HM A IH|b l a ss rs outs e b' HPn Hb A IH]; intros xs Hxs R1; inversion R1 as [|[[t a0] v] r xs' rs' Hc R1']; subst; [constructor| |];
    inversion Hxs as [|x xs0 Hx Hxs']; subst; destruct Hc as (-> & -> & Hc); destruct Hx as (Hv & Hs & Hf); (constructor; [|apply IH; assumption]).
  - intros p Hp. cbn [snd] in Hp. injection Hp as <-. intros f' Hf'. cbn [fst snd] in *.
    exact (dx_read_root pg bh bp bt bpa plan k m t a0 v f ss _ _ f' C LO HE PO DW HP HA HT Hv Hc Hf' HR).
  - intros p Hp. discriminate Hp.
Qed.

(** Over any storage that keeps the contract of its trait (C65, C92_any_storage) and whose reserve does not move the position. *)
Theorem C93_any_storage {P : Params} {L : Lexer} {St} (R : ra_impl St) inv contents empties :
  cfg_ok -> keeps_contract (r_st R) inv contents empties -> reserve_keeps_pos (r_st R) inv ->
  forall pg by_hand by_proxy by_type by_path plan k m f xs s ps z, let E := pr_env pg in
  storage_for k R inv contents -> lexer_ok -> wf_env E -> program_ok pg -> delegates_well pg m -> plain_program pg m ->
  plan_ok pg plan -> all_read_parts pg by_hand by_proxy by_type by_path m -> tracking k = false ->
  ready (r_st R) inv s -> Forall (session_input E m f) xs ->
  g_dx_all R pg k m f (map place_of xs) (g_from_storage s) = Ok ps z ->
  Forall2 (dx_value_read pg by_hand by_proxy by_type by_path plan (g_out_mem (r_st R) contents 0 (gz_st z))) xs ps.
Proof.
  intros C K KP pg bh bp bt bpa plan k m f xs s ps z E HS LO HE PO DW PP HP HA HT Hr Hxs Hg.
  destruct (C92_any_storage R inv contents empties C K KP pg k m f xs s HS LO HE PO DW PP Hr Hxs) as (rs & R1 & R2). rewrite Hg in R2.
  destruct R2 as (-> & _ & _ & _ & RG). assert (RB : g_read_base R k (gz_st z) = 0) by (destruct k; try reflexivity; discriminate HT).
  rewrite RB in RG. clear Hg Hr. generalize dependent (i_pos (r_st R) s).
  induction R1 as [|[[t a] v] [[l a'] ss] xs' rs' Hc R1 IH]; intros cur RG; [constructor|].
  destruct Hc as (-> & -> & Hc). inversion Hxs as [|? ? Hx Hxs']; subst. destruct Hx as (Hv & Hs & Hf).
  cbn [roots_pos regions] in *. destruct RG as [RG1 RG2]. constructor; [|apply IH; assumption]. intros f' Hf'. cbn [fst snd] in *.
  exact (dx_read_root pg bh bp bt bpa plan k m t a v f ss _ _ f' C LO HE PO DW HP HA HT Hv Hc Hf' RG1).
Qed.

(** ** The program of C92: Wrap's reader uses that of Outer, which uses those of its parts. *)
From Coq Require Import String.
From Verif Require Import PropStorage PropSerialize Demo WitnessSerialize WitnessDerive.
#[local] Existing Instance ascii_lexer.
Definition wrap_reader : dreader := fun dec M p cur =>
  match dec (TNamed 0) p cur, @read_int demo M (p + 24) 8 with
  | Some (o, cur'), Some e => Some (VStruct [o; VPrim e], cur')
  | _, _ => None
  end.
Definition deleg_reader (id : nat) : dreader := match id with 2%nat => wrap_reader | _ => fun _ => hand_reader id end.
Definition deleg_proxy_reader (w : path) (t : ty) : dreader := fun _ => proxy_reader w t.

Theorem C93_hypotheses :
  plan_ok deleg_prog mixed_plan /\
  all_read_parts (P := demo) deleg_prog (fun _ => eq) (fun _ _ => eq) deleg_reader deleg_proxy_reader deleg_mem.
Proof.
  split; [|split].
  - intros [|[|[|id]]] l fs i dfs _ H H1; unfold impl_for in H; cbn in H; try discriminate. injection H as <-. cbn in H1. injection H1 as <-.
    repeat constructor.
    + intros a [].
    + exists [doc_attr], (ser_with_attr (path_ "Proxy"%string)), [], (path_ "ser_with"%string). ands; try reflexivity. intros b [<-|[]]. vm_compute. discriminate.
    + intros a [].
  - intros [|[|[|id]]] h H; unfold impl_for in H; cbn in H; try discriminate; injection H as <-; intros dec a v Mo B p cur cur' Hr Ha HC HW.
    + destruct (hand_repr _ _ _ Hr) as (v0 & -> & Hb). destruct (dbox_repr _ _ _ Hb) as (q & x & -> & Hq & Hu & Hx). unfold hand_impl in HW. rewrite Hq in HW.
      inversion HW as [|? ? ? ? cur1 ? W1 W2]; subst. inversion W2; subst. inversion W1 as [? ? ? ? ? ? ? ? J1 J2| | | | |]; subst.
      inversion J2 as [|? ? ? ? cur2 ? K1 K2]; subst. inversion K2; subst. inversion K1; subst.
      eexists. split; [reflexivity|]. cbn [deleg_reader]. unfold hand_reader, read_u64_next.
      assert (R : @read_int demo (mem_from Mo B) (push_start (P := demo) cur u64_layout) 8 = Some x).
      { rewrite <- Hx. apply (read_int_ext (P := demo)). intros i Hi. apply J1. exact Hi. }
      rewrite R. reflexivity.
    + destruct (wrap_repr _ _ _ Hr) as (v0 & e & -> & H0). destruct (outer_repr _ _ _ H0) as (HR & _). unfold wrap_impl in HW. rewrite HR in HW.
      inversion HW as [|? ? ? ? cur1 ? W1 W2]; subst. inversion W2 as [|? ? ? ? cur2 ? W3 W4]; subst. inversion W4; subst. inversion W3; subst.
      inversion W1 as [| | | |? ? ? ? ? v' ? T1 T2|]; subst. pose proof (proj1 (turns_same (P := demo) deleg_prog) _ _ _ T1) as <-.
      eexists. split; [reflexivity|]. cbn [deleg_reader]. unfold wrap_reader. rewrite N.add_0_r in T2. rewrite T2.
      inversion Hr as [| | | | | | |id' d a' v' Hid Hd]; subst. cbn in Hid. injection Hid as <-.
      inversion Hd as [| | | | |l fs a' vs Hf| |]; subst. inversion Hf as [|off t fs' a' v1 vs' H1 Hf2]; subst.
      inversion Hf2 as [|off t fs' a' v2 vs1 H2 Hf3]; subst. inversion H2 as [l ok a1 n R1 R2| | | | | | |]; subst. cbn [u64_layout l_size] in R1.
      assert (R : @read_int demo (mem_from Mo B) (p + 24) 8 = Some e).
      { rewrite <- R1. apply (read_int_ext (P := demo)). intros i Hi. unfold mem_from. rewrite <- !N.add_assoc. apply HC. change (size_of (P := demo) (pr_env deleg_prog) (TNamed 2)) with 32. lia. }
      rewrite R. reflexivity.
  - intros w t Hw. rewrite (deleg_proxied w t Hw). intros dec a v Mo B p cur cur' Hr Ha HC HW.
    destruct (dbox_repr _ _ _ Hr) as (q & x & -> & Hq & Hu & Hx). cbn [pr_with deleg_prog] in HW. unfold proxy_impl in HW. rewrite Hq in HW.
    inversion HW as [|? ? ? ? cur1 ? W1 W2]; subst. inversion W2; subst. inversion W1 as [|? ? ? ? ? ? J1| | | |]; subst.
    eexists. split; [reflexivity|]. unfold deleg_proxy_reader, proxy_reader, read_u64_next.
    assert (R : @read_int demo (mem_from Mo B) (push_start (P := demo) cur u64_layout) 8 = Some x).
    { rewrite <- Hx. apply (read_int_ext (P := demo)). intros i Hi. apply J1. exact Hi. }
    rewrite R. reflexivity.
Qed.

(** The outputs of C92_witness, read back. *)
Theorem C93_witness : forall k, tracking k = false ->
  match dx_serialize (P := demo) deleg_prog k deleg_mem 10 (TBox (TNamed 2)) 4096 (from_storage demo_w) with
  | Ok p z => dx_decode_root (P := demo) deleg_prog deleg_reader deleg_proxy_reader mixed_plan (out_mem 0 (z_sw z)) 10 (TBox (TNamed 2)) p = Some deleg_val
  | _ => False
  end /\
  match @g_dx_all demo _ _ gs_storage deleg_prog k deleg_mem 10 (map place_of deleg_inputs) (g_from_storage (mkFixed 8 no_mem)) with
  | Ok ps z => map (fun tp => dx_decode_root (P := demo) deleg_prog deleg_reader deleg_proxy_reader mixed_plan (fx_buf (gz_st z)) 10 (fst tp) (snd tp))
       (combine (map (fun x => fst (fst x)) deleg_inputs) ps) = map (fun x => Some (snd x)) deleg_inputs
  | _ => False
  end.
Proof. intros k H; destruct k; try discriminate H; split; vm_compute; reflexivity. Qed.
