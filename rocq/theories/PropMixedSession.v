(** * PropMixedSession: serializing many values of any types of a program with one serializer,
    whatever panics (C83). *)
From Coq Require Import Arith.
From Verif Require Import Base Types Storage Serializer Serialize Client Spec ClientSpec ArithFacts StorageFacts StorageHist MemFacts TypeFacts SerFacts SerMain SerValue ClientFacts
  PropClient PropResume Derive DeriveSpec Mixed MixedFacts PropMixed MixedValid PropMixedValue.
Local Open Scope N_scope.

Section Session.
Context {P : Params} {L : Lexer}.
Variable pg : program.
Variable k : kind.
Variable m : mem.
Variables sf f : nat.

(** The same client as Client.attempt_all, but calling serializer.serialize_value
    (serializer.rs:260-269) on values of any types of the program, each under catch_unwind, having asked
    for serializer.pos() (serializer.rs:503-505) before. *)
Fixpoint mx_attempt_all (xs : list (ty * N)) : M zs (list (N * option N)) :=
  match xs with
  | [] => ret []
  | (t, a) :: xs' =>
      b <- ser_pos ;;
      r <- catch (mx_serialize_value pg k m sf f t a) ;;
      outs <- mx_attempt_all xs' ;;
      ret ((b, r) :: outs)
  end.
(** ... and then finalizing (serializer.rs:491, ptr_offset.rs, complete.rs finalize). *)
Definition mx_session (xs : list (ty * N)) : M zs (list (N * option N)) :=
  outs <- mx_attempt_all xs ;;
  finalize k ;;;
  ret outs.
End Session.

(** The inputs of a session: valid values of types of the program, not zero-sized. *)
Definition session_input {P : Params} (E : tenv) (m : mem) (f : nat) (x : ty * N * val) : Prop :=
  let '(t, a, v) := x in valid_input E any_header m t a v /\ 0 < size_of E t /\ (vdepth v < f)%nat.

(** What a session of a pointer-writing serializer leaves in the output memory [Mo] at base [B]:
    [b] is the position before, [e] after. *)
Inductive values_in {P : Params} {L : Lexer} (pg : program) (by_hand : nat -> val -> val -> Prop) (by_proxy : path -> ty -> val -> val -> Prop)
  (m Mo : mem) (B : N) : N -> list (ty * N * val) -> list (N * option N) -> N -> Prop :=
| VI_nil b : values_in pg by_hand by_proxy m Mo B b [] [] b
| VI_some b p t a v v' xs outs b' e :
    b <= p -> p + size_of (pr_env pg) t <= b' ->
    turns pg by_hand by_proxy t v v' -> repr (pr_env pg) any_header Mo t (B + p) v' ->
    values_in pg by_hand by_proxy m Mo B b' xs outs e ->
    values_in pg by_hand by_proxy m Mo B b ((t, a, v) :: xs) ((b, Some p) :: outs) e
| VI_none b t a v ss xs outs b' e :
    makes pg m t a ss -> existsb may_panic ss = true \/ MAXC < steps_end (pr_env pg) (push_end b (layout_of (pr_env pg) t) 1) ss ->
    b <= b' -> values_in pg by_hand by_proxy m Mo B b' xs outs e ->
    values_in pg by_hand by_proxy m Mo B b ((t, a, v) :: xs) ((b, None) :: outs) e.

Definition place_of (x : ty * N * val) : ty * N := fst x.
(** The calls of each value of the session. *)
Definition calls_of {P : Params} {L : Lexer} (pg : program) (m : mem) (x : ty * N * val) (r : layout * N * list step) : Prop :=
  let '(t, a, _) := x in let '(l, a', ss) := r in l = layout_of (pr_env pg) t /\ a' = a /\ makes pg m t a ss.

(** The session is that of the calls the values make. *)
Lemma mixed_is_session {P : Params} {L : Lexer} : forall pg k m sf f xs,
  let E := pr_env pg in
  cfg_ok -> lexer_ok -> wf_env E -> program_ok pg -> well_behaved pg m sf ->
  Forall (session_input E m f) xs ->
  exists rs, Forall2 (calls_of pg m) xs rs /\ Forall (root_in E m sf) rs /\
    forall z, mx_session pg k m sf f (map place_of xs) z = session k E m sf rs z.
Proof.
  intros pg k m sf f xs E C LO HE PO WB Hxs.
  assert (X : exists rs, Forall2 (calls_of pg m) xs rs /\ Forall (root_in E m sf) rs /\
            forall z, mx_attempt_all pg k m sf f (map place_of xs) z = attempt_all k E m sf rs z).
  { induction xs as [|[[t a] v] xs IH].
    - exists []. ands; constructor.
    - inversion Hxs as [|x y H1 H2]; subst. destruct H1 as (Hv & Hs & Hf). destruct (IH H2) as (rs & I1 & I2 & I3).
      destruct (C79_calls pg k m sf t a v C LO HE PO WB Hv) as (ss & K1 & _ & K2 & K3).
      destruct Hv as (Hw & Ha & _).
      exists ((layout_of E t, a, ss) :: rs). ands.
      + constructor; [|exact I1]. cbn. auto.
      + constructor; [|exact I2]. unfold root_in. ands; [exact (wf_good C E HE t Hw)|exact Hs|exact Ha|exact K2].
      + cbn [map place_of fst mx_attempt_all attempt_all]. intros z.
        unfold bind at 1 4. destruct (ser_pos z) as [b z1|e z1| | |]; auto.
        unfold bind at 1 3. unfold catch. destruct (K3 f z1 Hf) as (_ & -> & _). fold E.
        destruct (serialize_value_with _ _ _ z1) as [x z2|e z2| | |]; auto; unfold bind; rewrite I3; reflexivity. }
  destruct X as (rs & X1 & X2 & X3). exists rs. ands; auto. intros z. unfold mx_session, session, bind. rewrite X3. reflexivity.
Qed.
(** What the whole images of the calls mean for the values. *)
Lemma values_of_attempts {P : Params} {L : Lexer} : forall pg by_hand by_proxy k m sf f Mo B b xs rs outs e,
  let E := pr_env pg in
  cfg_ok -> lexer_ok -> wf_env E -> program_ok pg -> well_behaved pg m sf ->
  all_achieve pg by_hand by_proxy k m -> tracking k = true ->
  Forall (session_input E m f) xs -> Forall2 (calls_of pg m) xs rs -> Forall (root_in E m sf) rs ->
  attempts k E m Mo B b rs outs e -> values_in pg by_hand by_proxy m Mo B b xs outs e.
Proof.
  intros pg bh bp k m sf f Mo B b xs rs outs e E C LO HE PO WB HT HTr Hxs R1 R2 A. revert xs Hxs R1 R2.
  induction A as [b|b l a ss rs outs e HR HM A IH|b l a ss rs outs e b' HP Hb A IH]; intros xs Hxs R1 R2.
  - inversion R1; subst. constructor.
  - inversion R1 as [|[[t a0] v] r xs' rs' Hc R1']; subst. destruct Hc as (-> & -> & Hm).
    inversion R2 as [|r' rs' Hroot R2']; subst. inversion Hxs as [|x xs0 Hx Hxs']; subst. destruct Hx as ((Hw & Ha & Hv) & Hs & Hf).
    pose proof Hroot as (G1 & _ & _ & G4).
    destruct (proj1 (valid pg bh bp k m sf C HE LO PO WB HT HTr Mo B) t a0 v Hv Hw Ha) as [G _].
    destruct (G ss _ _ Hm HR) as (v' & U & V).
    eapply (VI_some pg bh bp m Mo B b _ t a0 v v').
    + apply (push_start_ge C b _ (proj1 G1)).
    + assert (Hge : push_start b (layout_of E t) + size_of E t <= steps_end E (push_end b (layout_of E t) 1) ss); [|exact Hge].
      rewrite <- (steps_allocs_end C E m sf _ _ _ _ G4) by apply push_end_VA.
      pose proof (push_end_ge C b (layout_of E t) 1). pose proof (end_pos_ge C (push_end b (layout_of E t) 1) (flat_map (step_allocs E) ss)).
      unfold size_of. lia.
    + exact U.
    + exact V.
    + apply IH; assumption.
  - inversion R1 as [|[[t a0] v] r xs' rs' Hc R1']; subst. destruct Hc as (-> & -> & Hm).
    inversion R2 as [|r' rs' Hroot R2']; subst. inversion Hxs as [|x xs0 Hx Hxs']; subst.
    eapply VI_none; eauto.
Qed.

(** Whatever the kind of serializer: the session is that of the calls the values make, so there is no undefined behaviour
    and no panic escapes; every value whose call returned has its whole image in the output ([attempts]), and what
    was in the storage before is kept. *)
Theorem C83_session {P : Params} {L : Lexer} : forall pg k m sf f xs w,
  let E := pr_env pg in
  cfg_ok -> alloc_ok -> lexer_ok -> wf_env E -> program_ok pg -> well_behaved pg m sf -> storage_ok w ->
  Forall (session_input E m f) xs ->
  exists rs, Forall2 (calls_of pg m) xs rs /\ Forall (root_in E m sf) rs /\
    match mx_session pg k m sf f (map place_of xs) (from_storage w) with
    | Ok outs z =>
        let w' := z_sw z in
        attempts k E m (out_mem (read_base k w') w') (read_base k w') (s_pos (sw_s w)) rs outs (s_pos (sw_s w')) /\
        storage_ok w' /\ extends w w' /\
        (forall i, i < s_pos (sw_s w) -> s_buf (sw_s w') i = s_buf (sw_s w) i)
    | Abort => alloc_failed
    | Panic _ _ | UB | OutOfFuel => False
    end.
Proof.
  intros pg k m sf f xs w E C HA LO HE PO WB Hok Hxs.
  destruct (mixed_is_session pg k m sf f xs C LO HE PO WB Hxs) as (rs & X1 & X2 & X3). exists rs. split; [exact X1|]. split; [exact X2|].
  rewrite X3. exact (C57_resume k E m sf rs w C HA HE Hok X2).
Qed.

(** With a pointer-writing serializer: every value whose call returned can be read, whole, from the final output, with the parts
    implemented by hand turned into what they are meant to be ([turns]), whatever panicked before or after it;
    and a call panicked only if one of the hand-written impls it runs does or the output would not fit. *)
Theorem C83_values {P : Params} {L : Lexer} : forall pg by_hand by_proxy k m sf f xs w,
  let E := pr_env pg in
  cfg_ok -> alloc_ok -> lexer_ok -> wf_env E -> program_ok pg -> well_behaved pg m sf ->
  all_achieve pg by_hand by_proxy k m -> tracking k = true -> storage_ok w ->
  Forall (session_input E m f) xs ->
  match mx_session pg k m sf f (map place_of xs) (from_storage w) with
  | Ok outs z =>
      let w' := z_sw z in
      values_in pg by_hand by_proxy m (out_mem (read_base k w') w') (read_base k w') (s_pos (sw_s w)) xs outs (s_pos (sw_s w')) /\
      storage_ok w' /\
      (forall i, i < s_pos (sw_s w) -> s_buf (sw_s w') i = s_buf (sw_s w) i)
  | Abort => alloc_failed
  | Panic _ _ | UB | OutOfFuel => False
  end.
Proof.
  intros pg bh bp k m sf f xs w E C HA LO HE PO WB HT HTr Hok Hxs.
  destruct (C83_session pg k m sf f xs w C HA LO HE PO WB Hok Hxs) as (rs & R1 & R2 & R3).
  destruct (mx_session _ _ _ _ _ _ _) as [outs z|e z| | |]; auto. cbv zeta in *. destruct R3 as (A & S & _ & K).
  ands; auto. exact (values_of_attempts pg bh bp k m sf f _ _ _ xs rs outs _ C LO HE PO WB HT HTr Hxs R1 R2 A).
Qed.

(** ** The program of C79, but Hand's impl panics, in the middle of its calls, if the number in its box is 13.
    The session: an Outer, a Hand whose impl panics, a Vec of Outers the second of which makes it panic, another Hand. *)
From Coq Require Import String.
From Verif Require Import PropStorage PropSerialize Demo WitnessSerialize WitnessDerive.
#[local] Existing Instance ascii_lexer.
Definition unlucky_impl (m : mem) (a : N) : list step :=
  match read_word (P := demo) m a with
  | Some p => SPush 0 u64_layout p 1 [SOver 0 u64_layout (bytes_src (w64 99))] ::
              match read_int (P := demo) m p 8 with Some n => if n =? 13 then [SPanic] else [] | None => [] end
  | None => []
  end.
Definition unlucky_prog : program := {|
  pr_env := mixed_env;
  pr_derived := fun id => match id with 0%nat => Some outer_decl | _ => None end;
  pr_hand := fun id => match id with 1%nat => Some unlucky_impl | _ => None end;
  pr_with := fun _ _ => proxy_impl |}.
Definition unlucky_mem : mem := chunks
  [ (4096, w64 3 ++ w64 8192 ++ w64 2);
    (8192, w64 11 ++ w64 12288 ++ w64 12296);
    (8216, w64 12 ++ w64 12304 ++ w64 12312);
    (12288, w64 21 ++ w64 31 ++ w64 22 ++ w64 13) ].
Definition outer_1 : val := VStruct [VPrim 11; VBox (VPrim 21); VStruct [VBox (VPrim 31)]].
Definition outer_2 : val := VStruct [VPrim 12; VBox (VPrim 22); VStruct [VBox (VPrim 13)]].
Definition unlucky_inputs : list (ty * N * val) :=
  [ (TNamed 0, 8192, outer_1); (TNamed 1, 8232, VStruct [VBox (VPrim 13)]);
    (TVec CPL (TNamed 0), 4096, VVec [outer_1; outer_2]); (TNamed 1, 8208, VStruct [VBox (VPrim 31)]) ].

Theorem C83_hypotheses :
  program_ok unlucky_prog /\ well_behaved (P := demo) unlucky_prog unlucky_mem 0 /\
  all_achieve (P := demo) unlucky_prog to_99 (fun _ _ => eq) Complete unlucky_mem /\
  Forall (@session_input demo mixed_env unlucky_mem 10) unlucky_inputs.
Proof.
  assert (PX : forall w t, proxied unlucky_prog w t -> t = TBox t_u64).
  { intros w t (id & i & l & fs & dfs & n & f & off & H1 & H2 & H3 & H4 & H5 & H6).
    destruct id as [|[|id]]; unfold impl_for in H1; cbn in H1; try discriminate. injection H1 as <-. cbn in H2. injection H2 as <- <-.
    cbn in H3. injection H3 as <-. destruct n as [|[|[|n]]]; cbn in H4; [| | |destruct n; discriminate]; injection H4 as <-.
    - destruct H5 as (pre & x & post & p & H & _). destruct pre; discriminate.
    - injection H6 as <- <-. reflexivity.
    - destruct H5 as (pre & x & post & p & H & _). destruct pre; discriminate. }
  ands.
  - destruct C79_hypotheses as (_ & _ & PO & _). intros [|[|id]] d H; [exact (PO 0%nat d H)|exact Logic.I|discriminate].
  - split.
    + intros [|[|id]] h H; unfold impl_for in H; cbn in H; try discriminate. injection H as <-.
      intros a v Hr Ha. inversion Hr as [| | | | | | |id' d a' v' Hid Hd]; subst. cbn in Hid. injection Hid as <-.
      inversion Hd as [| | | | |l fs a' vs Hf| |]; subst. inversion Hf as [|off t fs' a' v0 vs' Hb]; subst. rewrite N.add_0_r in Hb.
      destruct (box_repr _ _ _ Hb) as (p & Hp & Hu). unfold unlucky_impl. rewrite Hp.
      assert (HX : forall b : bool, steps_ok (P := demo) mixed_env unlucky_mem 0 8 8 a
        (SPush 0 u64_layout p 1 [SOver 0 u64_layout (bytes_src (w64 99))] :: (if b then [SPanic] else []))).
      { intros b. constructor; [| |].
        - apply OK_push; [le|dv|dv|apply slice_8; exact Hu|].
          constructor; [|intros ? ? []|constructor]. apply OK_over; [gl|cbn; lia|le|dv|dv].
        - intros s' i Hs. destruct b; [|destruct Hs]. destruct Hs as [<-|[]]. intros _ [].
        - destruct b; [|constructor]. constructor; [constructor|intros ? ? []|constructor]. }
      destruct (read_int (P := demo) unlucky_mem p 8) as [n|]; [exact (HX (n =? 13))|exact (HX false)].
    + intros w t Hx. rewrite (PX w t Hx). intros a v Hr Ha. destruct (box_repr _ _ _ Hr) as (p & Hp & Hu). cbn [pr_with unlucky_prog]. unfold proxy_impl. rewrite Hp.
      constructor; [|intros ? ? []|constructor]. apply OK_plain; [le|dv|dv|apply slice_8; exact Hu].
  - split.
    + intros [|[|id]] h H; unfold impl_for in H; cbn in H; try discriminate. injection H as <-.
      intros a v Mo B p cur Hr Ha HR. inversion Hr as [| | | | | | |id' d a' v' Hid Hd]; subst. cbn in Hid. injection Hid as <-.
      inversion Hd as [| | | | |l fs a' vs Hf| |]; subst. inversion Hf as [|off t fs' a' v0 vs' Hb]; subst. rewrite N.add_0_r in Hb.
      destruct (box_repr _ _ _ Hb) as (q & Hp & Hu). unfold unlucky_impl in HR. rewrite Hp in HR.
      inversion HR as [? ? ? ? ? R1 R2]; subst. inversion R2 as [|? ? ? ? ? I1 _]; subst.
      inversion I1 as [? ? ? ? ? ? ? ? J1 J2| | | | |]; subst. unfold points in J1. cbn [tracking] in J1. destruct J1 as [J1 J3].
      rewrite N.add_0_r in J1. inversion J2 as [? ? ? ? ? Q1 Q2]; subst. inversion Q2 as [|? ? ? ? ? K1 _]; subst.
      inversion K1 as [| | |? ? ? ? ? ? M1 M2| |]; subst. specialize (M1 eq_refl).
      eexists. split; [reflexivity|]. eapply R_named; [reflexivity|]. apply R_struct. constructor; [|constructor].
      rewrite N.add_0_r. apply (R_box (P := demo) _ _ _ _ _ (B + slice_pos (P := demo) cur u64_layout)); [exact J1|apply J3; discriminate|exact Logic.I|].
      apply R_prim; [|reflexivity]. apply (read_word_src (P := demo)); [vm_compute; reflexivity|].
      intros i Hi. rewrite <- N.add_assoc. specialize (M1 i Hi). rewrite N.add_0_r in M1. rewrite M1. reflexivity.
    + intros w t Hx. rewrite (PX w t Hx). intros a v Mo B p cur Hr Ha HR. inversion Hr as [|t' a' q v' Hq Hv Hh Hc| | | | | |]; subst.
      inversion Hc as [? ? ? n' N1 N2| | | | | | |]; subst.
      cbn [pr_with unlucky_prog] in HR. unfold proxy_impl in HR. rewrite Hq in HR.
      inversion HR as [? ? ? ? ? R1 R2]; subst. inversion R2 as [|? ? ? ? ? I1 _]; subst.
      inversion I1 as [|? ? ? ? ? ? ? J1 J2| | | |]; subst. unfold points in J1. cbn [tracking] in J1. destruct J1 as [J1 J3].
      rewrite N.add_0_r in J1. eexists. split; [reflexivity|].
      apply (R_box (P := demo) _ _ _ _ _ (B + slice_pos (P := demo) cur u64_layout)); [exact J1|apply J3; discriminate|exact Logic.I|].
      apply R_prim; [|reflexivity]. rewrite <- N1. apply (read_int_ext (P := demo)). intros j Hj. rewrite <- N.add_assoc. apply J2; [lia|exact Hj].
  - assert (HH : forall a q y, @read_word demo unlucky_mem a = Some q -> @read_int demo unlucky_mem q 8 = Some y -> @valid_ref demo u64_layout 1 q ->
      @repr demo mixed_env any_header unlucky_mem (TNamed 1) a (VStruct [VBox (VPrim y)])).
    { intros a q y H3 H5 H7. eapply R_named; [reflexivity|]. apply R_struct. constructor; [|constructor].
      rewrite N.add_0_r. apply (R_box (P := demo) _ _ _ _ _ q); [exact H3|exact H7|exact Logic.I|apply R_prim; [exact H5|reflexivity]]. }
    assert (HO : forall a n p q x y, @read_int demo unlucky_mem a 8 = Some n -> @read_word demo unlucky_mem (a + 8) = Some p -> @read_word demo unlucky_mem (a + 16) = Some q ->
      @read_int demo unlucky_mem p 8 = Some x -> @read_int demo unlucky_mem q 8 = Some y ->
      @valid_ref demo u64_layout 1 p -> @valid_ref demo u64_layout 1 q ->
      @repr demo mixed_env any_header unlucky_mem (TNamed 0) a (VStruct [VPrim n; VBox (VPrim x); VStruct [VBox (VPrim y)]])).
    { intros a n p q x y H1 H2 H3 H4 H5 H6 H7. eapply R_named; [reflexivity|]. apply R_struct.
      constructor; [rewrite N.add_0_r; apply R_prim; [exact H1|reflexivity]|].
      constructor; [apply (R_box (P := demo) _ _ _ _ _ p); [exact H2|exact H6|exact Logic.I|apply R_prim; [exact H4|reflexivity]]|].
      constructor; [|constructor]. exact (HH (a + 16) q y H3 H5 H7). }
    unfold unlucky_inputs. repeat (apply Forall_cons; [unfold session_input, valid_input; ands; [| | |vm_compute; reflexivity|cbn; lia]|]); [..|constructor].
    all: first [eapply W_named; reflexivity|apply W_vec; [eapply W_named; reflexivity|le]|le|idtac].
    + eapply HO; try rd; vok.
    + eapply HH; try rd; vok.
    + apply (R_vec (P := demo) _ _ _ _ _ _ 3 8192); [rd|rd|rd|vok|exact Logic.I|].
      constructor; [eapply HO; try rd; vok|]. constructor; [eapply HO; try rd; vok|constructor].
    + eapply HH; try rd; vok.
Qed.

(** What happens: the second and the third call panic, what the first and the fourth wrote is whole. *)
Theorem C83_witness :
  match mx_session (P := demo) unlucky_prog Complete unlucky_mem 0 10 (map place_of unlucky_inputs) (from_storage demo_w) with
  | Ok outs z => let b := s_ptr (sw_s (z_sw z)) in
      outs = [(0, Some 0); (40, None); (56, None); (160, Some 160)] /\
      map (fun i => @read_word demo (s_buf (sw_s (z_sw z))) i) [0; 8; 16; 24; 32; 160; 168] =
      map Some [11; b + 24; b + 32; 21; 99; b + 168; 99]
  | _ => False
  end.
Proof. vm_compute. repeat split. Qed.
