(** * PropMixedDecode: the outputs of the serializers that write no pointers, for mixed programs (C87). *)
From Coq Require Import Arith.
From Verif Require Import Base Types Storage Serializer Serialize Client Spec ClientSpec ArithFacts MemFacts TypeFacts SerFacts SerMain SerValue ClientFacts
  PropClient PropResume Derive DeriveSpec Mixed MixedFacts PropMixed MixedValid PropMixedValue PropMixedSession MixedDecode.
From Coq Require Import ZifyBool ZifyNat ZifyN.
Local Open Scope N_scope.

Lemma read_root {P : Params} {L : Lexer} : forall pg by_hand by_proxy by_type by_path plan k m sf t a v ss Mo b,
  let E := pr_env pg in
  cfg_ok -> lexer_ok -> wf_env E -> program_ok pg -> well_behaved pg m sf ->
  plan_ok pg plan -> all_read_back pg by_hand by_proxy by_type by_path k m -> tracking k = false ->
  valid_input E any_header m t a v -> makes pg m t a ss ->
  region k E m Mo 0 (push_start b (layout_of E t)) a (size_of E t) (push_end b (layout_of E t) 1) ss ->
  exists v', turns pg by_hand by_proxy t v v' /\
    forall f, (vdepth v < f)%nat -> mx_decode_root pg by_type by_path plan Mo f t (push_start b (layout_of E t)) = Some v'.
Proof.
  intros pg bh bp bt bpa plan k m sf t a v ss Mo b E C LO HE PO WB HP HA HT (Hw & Ha & Hv) Hm HR.
  destruct (proj1 (decodes pg bh bp bt bpa plan k m sf C HE LO PO WB HA HP HT Mo 0) t a v Hv Hw Ha) as [G _].
  destruct (G ss _ _ Hm HR) as (v' & U & V). exists v'. split; [exact U|]. intros f Hf. unfold mx_decode_root.
  replace (round_up (push_start b (layout_of E t) + size_of E t) VA) with (push_end b (layout_of E t) 1).
  2:{ unfold push_end, size_of. rewrite N.mul_1_r. reflexivity. }
  change (mem_from Mo 0) with (fun i => Mo (0 + i)) in V. change (fun i => Mo (0 + i)) with Mo in V. rewrite V by exact Hf. reflexivity.
Qed.

(** PureCopy and PosTracking write no usable pointers, but push everything in the order of the calls.  If the
    author of every hand-written impl has a reader for what its calls push ([all_read_back]), the whole output can be read
    in order, without following any pointer: it gives the value serialized, with the parts implemented by hand
    turned into what they are meant to be. *)
Theorem C87_value {P : Params} {L : Lexer} : forall pg by_hand by_proxy by_type by_path plan k m sf t a v w f p z,
  let E := pr_env pg in
  cfg_ok -> alloc_ok -> lexer_ok -> wf_env E -> program_ok pg -> well_behaved pg m sf ->
  plan_ok pg plan -> all_read_back pg by_hand by_proxy by_type by_path k m -> tracking k = false ->
  storage_ok w -> valid_input E any_header m t a v -> 0 < size_of E t -> (vdepth v < f)%nat ->
  mx_serialize pg k m sf f t a (from_storage w) = Ok p z ->
  exists v', turns pg by_hand by_proxy t v v' /\
    forall f', (vdepth v < f')%nat -> mx_decode_root pg by_type by_path plan (out_mem 0 (z_sw z)) f' t p = Some v'.
Proof.
  intros pg bh bp bt bpa plan k m sf t a v w f p z E C HAl LO HE PO WB HP HA HT Hok Hv Hs Hf Hr.
  destruct (C79_mixed pg k m sf t a v w f C HAl LO HE PO WB Hok Hv Hs Hf) as (ss & Hm & HC). rewrite Hr in HC.
  destruct HC as (-> & _ & _ & _ & HR). assert (RB : read_base k (z_sw z) = 0) by (destruct k; try reflexivity; discriminate HT).
  rewrite RB in HR. exact (read_root pg bh bp bt bpa plan k m sf t a v ss _ _ C LO HE PO WB HP HA HT Hv Hm HR).
Qed.

(** There is such a plan for every program that compiles. *)
Theorem C87_plan {P : Params} {L : Lexer} : forall pg, lexer_ok -> program_ok pg -> exists plan, plan_ok pg plan.
Proof.
  intros pg LO PO.
  exists (fun id => match impl_for pg id with IDerived i => match generated i None with Some ks => map fst ks | None => [] end | _ => [] end).
  intros id l fs i dfs Ee Ei Ed. rewrite Ei. pose proof (PO id _ Ee) as Pk. rewrite Ei in Pk. inversion Pk as [l0 fs0 dfs0 im Ed' Hl Hn Hg Hq|]; subst.
  assert (dfs0 = dfs) by congruence. subst dfs0.
  assert (Hc : exists cs, Forall2 wanted (field_list dfs) cs).
  { clear - Hq. induction (field_list dfs) as [|g r IHr]; [exists []; constructor|].
    destruct (Hq g (or_introl eq_refl)) as [c Hc]. destruct IHr as [cs Hcs]; [intros g' Hg'; apply Hq; right; exact Hg'|]. exists (c :: cs). constructor; assumption. }
  destruct Hc as [cs Hc]. destruct (struct_generated LO i dfs im cs Ed Hl Hg Hc) as (ks & G1 & _ & G3). rewrite G1, G3. exact Hc.
Qed.

(** Implementations whose readers give back the value as it was: the output reads back as the value itself. *)
Theorem C87_same {P : Params} {L : Lexer} : forall pg by_type by_path plan k m sf t a v w f p z,
  let E := pr_env pg in
  cfg_ok -> alloc_ok -> lexer_ok -> wf_env E -> program_ok pg -> well_behaved pg m sf ->
  plan_ok pg plan -> all_read_back pg (fun _ => eq) (fun _ _ => eq) by_type by_path k m -> tracking k = false ->
  storage_ok w -> valid_input E any_header m t a v -> 0 < size_of E t -> (vdepth v < f)%nat ->
  mx_serialize pg k m sf f t a (from_storage w) = Ok p z ->
  forall f', (vdepth v < f')%nat -> mx_decode_root pg by_type by_path plan (out_mem 0 (z_sw z)) f' t p = Some v.
Proof.
  intros pg bt bpa plan k m sf t a v w f p z E C HAl LO HE PO WB HP HA HT Hok Hv Hs Hf Hr.
  destruct (C87_value pg (fun _ => eq) (fun _ _ => eq) bt bpa plan k m sf t a v w f p z C HAl LO HE PO WB HP HA HT Hok Hv Hs Hf Hr) as (v' & U & V).
  pose proof (proj1 (turns_same pg) t v v' U) as Eq. rewrite <- Eq in V. exact V.
Qed.

(** What a session (C83) of these serializers leaves: every value whose call returned is read from the position
    it returned, whatever panicked before or after. *)
Inductive values_read {P : Params} {L : Lexer} (pg : program) (by_hand : nat -> val -> val -> Prop) (by_proxy : path -> ty -> val -> val -> Prop)
  (by_type : nat -> reader) (by_path : path -> ty -> reader) (plan : nat -> list callee) (Mo : mem) : list (ty * N * val) -> list (N * option N) -> Prop :=
| VR_nil : values_read pg by_hand by_proxy by_type by_path plan Mo [] []
| VR_some b p t a v v' xs outs :
    turns pg by_hand by_proxy t v v' ->
    (forall f, (vdepth v < f)%nat -> mx_decode_root pg by_type by_path plan Mo f t p = Some v') ->
    values_read pg by_hand by_proxy by_type by_path plan Mo xs outs ->
    values_read pg by_hand by_proxy by_type by_path plan Mo ((t, a, v) :: xs) ((b, Some p) :: outs)
| VR_none b t a v xs outs :
    values_read pg by_hand by_proxy by_type by_path plan Mo xs outs ->
    values_read pg by_hand by_proxy by_type by_path plan Mo ((t, a, v) :: xs) ((b, None) :: outs).

Theorem C87_session {P : Params} {L : Lexer} : forall pg by_hand by_proxy by_type by_path plan k m sf f xs w outs z,
  let E := pr_env pg in
  cfg_ok -> alloc_ok -> lexer_ok -> wf_env E -> program_ok pg -> well_behaved pg m sf ->
  plan_ok pg plan -> all_read_back pg by_hand by_proxy by_type by_path k m -> tracking k = false ->
  storage_ok w -> Forall (session_input E m f) xs ->
  mx_session pg k m sf f (map place_of xs) (from_storage w) = Ok outs z ->
  values_read pg by_hand by_proxy by_type by_path plan (out_mem 0 (z_sw z)) xs outs.
Proof.
  intros pg bh bp bt bpa plan k m sf f xs w outs z E C HAl LO HE PO WB HP HA HT Hok Hxs Hr.
  destruct (C83_session pg k m sf f xs w C HAl LO HE PO WB Hok Hxs) as (rs & R1 & R2 & R3). rewrite Hr in R3.
  destruct R3 as (A & _). assert (RB : read_base k (z_sw z) = 0) by (destruct k; try reflexivity; discriminate HT). rewrite RB in A.
  remember (s_pos (sw_s w)) as b eqn:Eb. remember (s_pos (sw_s (z_sw z))) as e eqn:Ee. clear Eb Ee Hr.
  revert xs Hxs R1 R2. induction A as [b|b l a ss rs outs e HR HM A IH|b l a ss rs outs e b' HPn Hb A IH]; intros xs Hxs R1 R2.
  - inversion R1; subst. constructor.
  - inversion R1 as [|[[t a0] v] r xs' rs' Hc R1']; subst. destruct Hc as (-> & -> & Hm).
    inversion R2 as [|r' rs' Hroot R2']; subst. inversion Hxs as [|x xs0 Hx Hxs']; subst. destruct Hx as (Hv & Hs & Hf).
    destruct (read_root pg bh bp bt bpa plan k m sf t a0 v ss _ _ C LO HE PO WB HP HA HT Hv Hm HR) as (v' & U & V).
    econstructor; [exact U|exact V|]. apply IH; assumption.
  - inversion R1 as [|[[t a0] v] r xs' rs' Hc R1']; subst.
    inversion R2 as [|r' rs' Hroot R2']; subst. inversion Hxs as [|x xs0 Hx Hxs']; subst. constructor. apply IH; assumption.
Qed.

(** ** The program of C79: what Hand's impl pushes is read as it was, since PureCopy and PosTracking overwrite nothing. *)
From Coq Require Import String.
From Verif Require Import PropStorage PropSerialize Demo WitnessSerialize WitnessDerive.
#[local] Existing Instance ascii_lexer.
Definition read_u64_next (f : N -> val) : reader := fun M p cur =>
  match read_int (P := demo) M (push_start (P := demo) cur u64_layout) 8 with
  | Some n => Some (f n, push_end (P := demo) cur u64_layout 1)
  | None => None
  end.
Definition hand_reader (id : nat) : reader := read_u64_next (fun n => VStruct [VBox (VPrim n)]).
Definition proxy_reader (w : path) (t : ty) : reader := read_u64_next (fun n => VBox (VPrim n)).
Definition mixed_plan (id : nat) : list callee := [CSerialize; CWith (path_ "Proxy"%string); CSerialize].

Theorem C87_hypotheses : forall k, tracking k = false ->
  plan_ok mixed_prog mixed_plan /\
  all_read_back (P := demo) mixed_prog (fun _ => eq) (fun _ _ => eq) hand_reader proxy_reader k mixed_mem.
Proof.
  intros k HT. split; [|split].
  - intros [|[|id]] l fs i dfs _ H H1; unfold impl_for in H; cbn in H; try discriminate. injection H as <-. cbn in H1. injection H1 as <-.
    repeat constructor.
    + intros a [].
    + exists [doc_attr], (ser_with_attr (path_ "Proxy"%string)), [], (path_ "ser_with"%string). ands; try reflexivity. intros b [<-|[]]. vm_compute. discriminate.
    + intros a [].
  - intros [|[|id]] h H; unfold impl_for in H; cbn in H; try discriminate. injection H as <-.
    intros a v Mo B p cur Hr Ha HR. inversion Hr as [| | | | | | |id' d a' v' Hid Hd]; subst. cbn in Hid. injection Hid as <-.
    inversion Hd as [| | | | |l fs a' vs Hf| |]; subst. inversion Hf as [|off t fs' a' v0 vs' Hb Hn]; subst. inversion Hn; subst. rewrite N.add_0_r in Hb.
    inversion Hb as [|t a' q v' Hq Hv Hh Hc| | | | | |]; subst. inversion Hc as [? ? ? n' N1 N2| | | | | | |]; subst.
    unfold hand_impl in *. rewrite Hq in *.
    inversion HR as [? ? ? ? ? R1 R2]; subst. inversion R2 as [|? ? ? ? ? I1 _]; subst.
    inversion I1 as [? ? ? ? ? ? ? ? J1 J2| | | | |]; subst. inversion J2 as [? ? ? ? ? Q1 Q2]; subst.
    inversion Q2 as [|? ? ? ? ? K1 _]; subst.
    assert (KC : k <> Complete) by (intros ->; discriminate HT).
    inversion K1 as [| | |? ? ? ? ? ? M1 M2| |]; subst. specialize (M2 KC).
    eexists. split; [reflexivity|]. unfold hand_reader, read_u64_next.
    assert (R : @read_int demo (mem_from Mo B) (push_start (P := demo) cur u64_layout) 8 = Some n').
    { rewrite <- N1. apply (read_int_ext (P := demo)). intros i Hi. unfold mem_from. specialize (M2 i). rewrite !N.add_0_l in M2. apply M2; [lia|exact Hi]. }
    rewrite R. reflexivity.
  - intros w t (id & i & l & fs & dfs & n & f & off & H1 & H2 & H3 & H4 & H5 & H6).
    assert (t = TBox t_u64) as ->.
    { destruct id as [|[|id]]; unfold impl_for in H1; cbn in H1; try discriminate. injection H1 as <-. cbn in H2. injection H2 as <- <-.
      cbn in H3. injection H3 as <-. destruct n as [|[|[|n]]]; cbn in H4; [| | |destruct n; discriminate]; injection H4 as <-.
      - destruct H5 as (pre & x & post & p & H & _). destruct pre; discriminate.
      - injection H6 as <- <-. reflexivity.
      - destruct H5 as (pre & x & post & p & H & _). destruct pre; discriminate. }
    intros a v Mo B p cur Hr Ha HR. inversion Hr as [|t a' q v' Hq Hv Hh Hc| | | | | |]; subst.
    inversion Hc as [? ? ? n' N1 N2| | | | | | |]; subst.
    cbn [pr_with mixed_prog] in *. unfold proxy_impl in *. rewrite Hq in *.
    inversion HR as [? ? ? ? ? R1 R2]; subst. inversion R2 as [|? ? ? ? ? I1 _]; subst.
    inversion I1 as [|? ? ? ? ? ? ? J1 J2| | | |]; subst.
    eexists. split; [reflexivity|]. unfold proxy_reader, read_u64_next.
    assert (R : @read_int demo (mem_from Mo B) (push_start (P := demo) cur u64_layout) 8 = Some n').
    { rewrite <- N1. apply (read_int_ext (P := demo)). intros j Hj. unfold mem_from. apply J2; [lia|exact Hj]. }
    rewrite R. reflexivity.
Qed.

(** The output of C79_witness, read back. *)
Theorem C87_witness : forall k, tracking k = false ->
  match mx_serialize (P := demo) mixed_prog k mixed_mem 0 10 (TVec CPL (TNamed 0)) 4096 (from_storage demo_w) with
  | Ok p z => mx_decode_root (P := demo) mixed_prog hand_reader proxy_reader mixed_plan (out_mem 0 (z_sw z)) 10 (TVec CPL (TNamed 0)) p = Some mixed_val
  | _ => False
  end.
Proof. intros k H; destruct k; try discriminate H; vm_compute; reflexivity. Qed.
