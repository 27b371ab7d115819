(** * PropMixedValue: the value in a mixed program's output (C80). *)
From Coq Require Import Arith.
From Verif Require Import Base Types Storage Serializer Serialize Client Spec ClientSpec ArithFacts MemFacts TypeFacts ClientFacts
  PropClient Derive DeriveSpec Mixed MixedFacts PropMixed MixedValid.
Local Open Scope N_scope.

(** If every hand-written impl, where its calls have had their effect, leaves a valid value of its type, as it is
    meant to ([by_hand], [by_proxy]), then so is the whole output of a pointer-writing serializer: the value
    serialized, with the parts implemented by hand turned into what they are meant to be. *)
Theorem C80_value {P : Params} {L : Lexer} : forall pg by_hand by_proxy k m sf t a v w f p z,
  let E := pr_env pg in
  cfg_ok -> alloc_ok -> lexer_ok -> wf_env E -> program_ok pg -> well_behaved pg m sf ->
  all_achieve pg by_hand by_proxy k m -> tracking k = true ->
  storage_ok w -> valid_input E any_header m t a v -> 0 < size_of E t -> (vdepth v < f)%nat ->
  mx_serialize pg k m sf f t a (from_storage w) = Ok p z ->
  exists v', turns pg by_hand by_proxy t v v' /\
    repr E any_header (out_mem (read_base k (z_sw z)) (z_sw z)) t (read_base k (z_sw z) + p) v'.
Proof.
  intros pg bh bp k m sf t a v w f p z E C HAl LO HE PO WB HA HT Hok Hv Hs Hf Hr.
  destruct (C79_mixed pg k m sf t a v w f C HAl LO HE PO WB Hok Hv Hs Hf) as (ss & Hm & HC). rewrite Hr in HC.
  destruct HC as (-> & _ & _ & _ & HR). destruct Hv as (Hw & Ha & Hv).
  destruct (proj1 (valid pg bh bp k m sf C HE LO PO WB HA HT (out_mem (read_base k (z_sw z)) (z_sw z)) (read_base k (z_sw z))) t a v Hv Hw Ha) as [G _].
  exact (G ss _ _ Hm HR).
Qed.

(** Implementations that leave the value as it is: the output is the value itself. *)
Theorem C80_same {P : Params} {L : Lexer} : forall pg k m sf t a v w f p z,
  let E := pr_env pg in
  cfg_ok -> alloc_ok -> lexer_ok -> wf_env E -> program_ok pg -> well_behaved pg m sf ->
  all_achieve pg (fun _ => eq) (fun _ _ => eq) k m -> tracking k = true ->
  storage_ok w -> valid_input E any_header m t a v -> 0 < size_of E t -> (vdepth v < f)%nat ->
  mx_serialize pg k m sf f t a (from_storage w) = Ok p z ->
  repr E any_header (out_mem (read_base k (z_sw z)) (z_sw z)) t (read_base k (z_sw z) + p) v.
Proof.
  intros pg k m sf t a v w f p z E C HAl LO HE PO WB HA HT Hok Hv Hs Hf Hr.
  destruct (C80_value pg _ _ k m sf t a v w f p z C HAl LO HE PO WB HA HT Hok Hv Hs Hf Hr) as (v' & U & V).
  rewrite (proj1 (turns_same pg) t v v' U). exact V.
Qed.

(** ** The program of C79_witness: Hand's impl is meant to replace the number in its box by 99, the proxy to change nothing. *)
From Coq Require Import String.
From Verif Require Import PropStorage PropSerialize Demo WitnessSerialize WitnessDerive.
#[local] Existing Instance ascii_lexer.
Definition to_99 (id : nat) (v v' : val) : Prop := v' = VStruct [VBox (VPrim 99)].
Theorem C80_hypotheses : all_achieve (P := demo) mixed_prog to_99 (fun _ _ => eq) Complete mixed_mem.
Proof.
  split.
  - intros [|[|id]] h H; unfold impl_for in H; cbn in H; try discriminate. injection H as <-.
    intros a v Mo B p cur Hr Ha HR. inversion Hr as [| | | | | | |id' d a' v' Hid Hd]; subst. cbn in Hid. injection Hid as <-.
    inversion Hd as [| | | | |l fs a' vs Hf| |]; subst. inversion Hf as [|off t fs' a' v0 vs' Hb]; subst. rewrite N.add_0_r in Hb.
    destruct (box_repr _ _ _ Hb) as (q & Hp & Hu). unfold hand_impl in HR. rewrite Hp in HR.
    inversion HR as [? ? ? ? ? R1 R2]; subst. inversion R2 as [|? ? ? ? ? I1 _]; subst.
    inversion I1 as [? ? ? ? ? ? ? ? J1 J2| | | | |]; subst. unfold points in J1. cbn [tracking] in J1. destruct J1 as [J1 J3].
    rewrite N.add_0_r in J1. inversion J2 as [? ? ? ? ? Q1 Q2]; subst. inversion Q2 as [|? ? ? ? ? K1 _]; subst.
    inversion K1 as [| | |? ? ? ? ? ? M1 M2| |]; subst. specialize (M1 eq_refl).
    eexists. split; [reflexivity|]. eapply R_named; [reflexivity|]. apply R_struct. constructor; [|constructor].
    rewrite N.add_0_r. apply (R_box (P := demo) _ _ _ _ _ (B + slice_pos (P := demo) cur u64_layout)); [exact J1|apply J3; discriminate|exact Logic.I|].
    apply R_prim; [|reflexivity]. apply (read_word_src (P := demo)); [vm_compute; reflexivity|].
    intros i Hi. rewrite <- N.add_assoc. specialize (M1 i Hi). rewrite N.add_0_r in M1. rewrite M1. reflexivity.
  - intros w t (id & i & l & fs & dfs & n & f & off & H1 & H2 & H3 & H4 & H5 & H6).
    assert (t = TBox t_u64) as ->.
    { destruct id as [|[|id]]; unfold impl_for in H1; cbn in H1; try discriminate. injection H1 as <-. cbn in H2. injection H2 as <- <-.
      cbn in H3. injection H3 as <-. destruct n as [|[|[|n]]]; cbn in H4; [| | |destruct n; discriminate]; injection H4 as <-.
      - destruct H5 as (pre & x & post & p & H & _). destruct pre; discriminate.
      - injection H6 as <- <-. reflexivity.
      - destruct H5 as (pre & x & post & p & H & _). destruct pre; discriminate. }
    intros a v Mo B p cur Hr Ha HR. inversion Hr as [|t a' q v' Hq Hv Hh Hc| | | | | |]; subst.
    inversion Hc as [? ? ? n' N1 N2| | | | | | |]; subst.
    cbn [pr_with mixed_prog] in HR. unfold proxy_impl in HR. change (@read_word demo mixed_mem a) with (@read_word demo mixed_mem a) in HR. rewrite Hq in HR.
    inversion HR as [? ? ? ? ? R1 R2]; subst. inversion R2 as [|? ? ? ? ? I1 _]; subst.
    inversion I1 as [|? ? ? ? ? ? ? J1 J2| | | |]; subst. unfold points in J1. cbn [tracking] in J1. destruct J1 as [J1 J3].
    rewrite N.add_0_r in J1. eexists. split; [reflexivity|].
    apply (R_box (P := demo) _ _ _ _ _ (B + slice_pos (P := demo) cur u64_layout)); [exact J1|apply J3; discriminate|exact Logic.I|].
    apply R_prim; [|reflexivity]. rewrite <- N1. apply (read_int_ext (P := demo)). intros j Hj. rewrite <- N.add_assoc. apply J2; [lia|exact Hj].
Qed.

Definition turned_val : val :=
  VVec [ VStruct [VPrim 11; VBox (VPrim 21); VStruct [VBox (VPrim 99)]];
         VStruct [VPrim 12; VBox (VPrim 22); VStruct [VBox (VPrim 99)]] ].
Lemma two_callees cs : Forall2 wanted (field_list (FNamed
  [plain "val_n"%string; mkField (Some (id_ "val_x"%string)) [doc_attr; ser_with_attr (path_ "Proxy"%string)] (TyOther 1); plain "hand"%string])) cs ->
  exists w, cs = [CSerialize; CWith w; CSerialize].
Proof.
  intros H. cbn [field_list] in H. inversion H as [|? c1 ? r1 W1 F1]; subst. inversion F1 as [|? c2 ? r2 W2 F2]; subst.
  inversion F2 as [|? c3 ? r3 W3 F3]; subst. inversion F3; subst.
  inversion W1 as [_|w1 (pre & x & post & p & A & _)]; subst; [|destruct pre; discriminate].
  inversion W3 as [_|w3 (pre & x & post & p & A & _)]; subst; [|destruct pre; discriminate].
  inversion W2 as [U|w2 _]; subst; [|eauto].
  exfalso. apply (U (ser_with_attr (path_ "Proxy"%string))); [right; left; reflexivity|reflexivity].
Qed.
(** What C80_value says of it: the output is that value and no other. *)
Theorem C80_witness : forall v',
  turns (P := demo) mixed_prog to_99 (fun _ _ => eq) (TVec CPL (TNamed 0)) mixed_val v' <-> v' = turned_val.
Proof.
  assert (Hand : forall v v', turns (P := demo) mixed_prog to_99 (fun _ _ => eq) (TNamed 1) v v' <-> v' = VStruct [VBox (VPrim 99)]).
  { intros v v'. split.
    - intros H. inversion H as [| | | | | | | | |id h x y EI Q|id i l fs dfs cs x y EI|id i l d vss j fs x y EI]; subst; [exact Q| |]; unfold impl_for in EI; cbn in EI; discriminate.
    - intros ->. eapply U_hand; reflexivity. }
  assert (HU : exists im, derive_serialize outer_decl = Gen im) by (eexists; vm_compute; reflexivity).
  assert (W : exists cs, Forall2 wanted (field_list (FNamed
    [plain "val_n"%string; mkField (Some (id_ "val_x"%string)) [doc_attr; ser_with_attr (path_ "Proxy"%string)] (TyOther 1); plain "hand"%string])) cs).
  { exists [CSerialize; CWith (path_ "Proxy"%string); CSerialize]. repeat constructor.
    - intros a [].
    - exists [doc_attr], (ser_with_attr (path_ "Proxy"%string)), [], (path_ "ser_with"%string). ands; try reflexivity. intros b [<-|[]]. vm_compute. discriminate.
    - intros a []. }
  assert (Outer : forall n x h v', turns (P := demo) mixed_prog to_99 (fun _ _ => eq) (TNamed 0) (VStruct [n; x; h]) v' <-> v' = VStruct [n; x; VStruct [VBox (VPrim 99)]]).
  { intros n x h v'. split.
    - intros H. inversion H as [| | | | | | | | |id hh y y' EI Q|id i l fs dfs cs vs vs' EI Ed Hd Hc TF|id i l d vss j fs vs vs' EI Ed]; subst.
      + unfold impl_for in EI; cbn in EI; discriminate.
      + unfold impl_for in EI; cbn in EI. injection EI as <-. cbn in Ed. injection Ed as <- <-. cbn in Hd. injection Hd as <-.
        destruct (two_callees cs Hc) as [w ->].
        inversion TF as [|? ? ? ? ? n' ? r1 T1 TF1|]; subst. inversion TF1 as [| |? ? ? ? ? ? x' ? r2 T2 TF2]; subst.
        inversion TF2 as [|? ? ? ? ? h' ? r3 T3 TF3|]; subst. inversion TF3; subst.
        inversion T1; subst. apply Hand in T3. subst. reflexivity.
    - intros ->. destruct W as [cs Hc]. eapply U_derived; [reflexivity|reflexivity|reflexivity|exact Hc|].
      destruct (two_callees cs Hc) as [w ->]. constructor; [constructor|]. constructor; [reflexivity|]. constructor; [apply Hand; reflexivity|constructor]. }
  intros v'. split.
  - intros H. inversion H as [| | |vl t vs vs' NZ TA| |vl t v Z| | | | | |]; subst; [|vm_compute in Z; discriminate].
    inversion TA as [|? ? y1 ? r1 T1 TA1]; subst. inversion TA1 as [|? ? y2 ? r2 T2 TA2]; subst. inversion TA2; subst.
    apply Outer in T1, T2. subst. reflexivity.
  - intros ->. apply U_vec; [vm_compute; discriminate|]. constructor; [apply Outer; reflexivity|]. constructor; [apply Outer; reflexivity|constructor].
Qed.
