(** * PropMixed: programs whose types mix derived, built-in and hand-written implementations (C79). *)
From Coq Require Import Arith.
From Verif Require Import Base Types Storage Serializer Serialize Client Spec ClientSpec ArithFacts TypeFacts ClientFacts Depth
  PropClient Derive DeriveSpec DeriveFacts Mixed MixedFacts.
Local Open Scope N_scope.

(** A program none of whose types is implemented by hand: running the generated code is what
    Serialize.v says, so all its theorems are about the generated code. *)
Theorem C79_derived {P : Params} {L : Lexer} : forall pg k m sf,
  lexer_ok -> wf_env (pr_env pg) -> program_ok pg ->
  (forall id, pr_hand pg id = None) ->
  (forall id i dfs f, pr_derived pg id = Some i -> i_data i = DStruct dfs -> In f (field_list dfs) -> unannotated f) ->
  (forall fuel t a z, mx_data pg k m sf fuel t a z = ser_data k (pr_env pg) m fuel t a z) /\
  (forall fuel t a z, mx_serialize_value pg k m sf fuel t a z = serialize_value k (pr_env pg) m fuel t a z) /\
  (forall fuel t a z, mx_serialize pg k m sf fuel t a z = serialize k (pr_env pg) m fuel t a z).
Proof.
  intros pg k m sf LO HE PO HH HU.
  assert (D : forall fuel t a, eqm (mx_data pg k m sf fuel t a) (ser_data k (pr_env pg) m fuel t a)).
  { induction fuel as [|f IH]; intros t a; [apply eqm_refl|].
    assert (HF : forall fs a, eqm (for_fields fs a (mx_data pg k m sf f)) (for_fields fs a (ser_data k (pr_env pg) m f))).
    { induction fs as [|[off u] fs IHf]; intros b; [apply eqm_refl|]. cbn [for_fields]. apply eqm_bind; [apply IH|intros _; apply IHf]. }
    assert (HL : forall n u b, eqm (for_elems n b (size_of (pr_env pg) u) (mx_data pg k m sf f u)) (for_elems n b (size_of (pr_env pg) u) (ser_data k (pr_env pg) m f u))).
    { induction n as [|n IHn]; intros u b; [apply eqm_refl|]. cbn [for_elems]. apply eqm_bind; [apply IH|intros _; apply IHn]. }
    destruct t as [l ok|t|vl t|vl|t n|l fs|l d vss|id]; cbn [mx_data ser_data resolve].
    - apply eqm_refl.
    - unfold ser_box. destruct (_ =? 0); [apply eqm_refl|]. apply eqm_bind; [apply eqm_refl|intros pa].
      apply eqm_bind; [apply eqm_refl|intros p]. unfold push_and_process. apply eqm_bind; [|intros; apply eqm_refl]. apply eqm_pps. apply IH.
    - unfold ser_vec. destruct (_ =? 0); [apply eqm_refl|]. apply eqm_bind; [apply eqm_refl|intros len].
      destruct (len =? 0); [apply eqm_refl|].
      apply eqm_bind; [apply eqm_refl|intros _]. apply eqm_bind; [apply eqm_refl|intros vo].
      apply eqm_bind; [apply eqm_refl|intros pa]. apply eqm_bind; [apply eqm_refl|intros p].
      apply eqm_bind; [|intros; apply eqm_refl]. apply eqm_pps. apply HL.
    - apply eqm_refl.
    - apply HL.
    - apply HF.
    - destruct (read_discr m a d); [|apply eqm_refl]. destruct (nth_error vss n); [apply HF|apply eqm_refl].
    - destruct (pr_env pg id) as [d|] eqn:Ed.
      2:{ unfold impl_for. rewrite HH. destruct (pr_derived pg id); apply eqm_refl. }
      pose proof (PO id d Ed) as Pk. unfold impl_for in *. rewrite HH in *. destruct (pr_derived pg id) as [i|] eqn:Ei; [|contradiction].
      inversion Pk as [l fs dfs im Hd Hl Hn Hg Hq|l dd vss vs im Hd Hl Hn Hg]; subst.
      + assert (Hc : Forall2 wanted (field_list dfs) (map (fun _ => CSerialize) (field_list dfs))).
        { assert (Hx : forall g, In g (field_list dfs) -> unannotated g) by (intros g Hg'; eapply HU; eassumption).
          clear - Hx. induction (field_list dfs) as [|g r IHr]; [constructor|]. cbn [map]. constructor.
          - constructor. apply Hx. left. reflexivity.
          - apply IHr. intros g' Hg'. apply Hx. right. exact Hg'. }
        unfold exec_derived. destruct (struct_generated LO i dfs im _ Hd Hl Hg Hc) as (ks & G1 & G2 & G3). rewrite G1.
        rewrite (exec_from pg k m sf _ a ks fs [] fs eq_refl ltac:(rewrite G2, Hn; reflexivity)), G3.
        assert (Hm : map (fun _ : field => CSerialize) (field_list dfs) = map (fun _ : N * ty => CSerialize) fs).
        { clear - Hn. revert fs Hn. induction (field_list dfs) as [|g r IHr]; intros [|x fs] Hn; try discriminate; [reflexivity|].
          cbn [map]. f_equal. apply IHr. injection Hn as Hn. exact Hn. }
        rewrite Hm, own_fields. apply HF.
      + destruct (read_discr m a dd) as [j|]; [|apply eqm_refl]. destruct (nth_error vss j) as [fs|] eqn:Nj; [|apply eqm_refl].
        assert (Hx : exists vv, nth_error vs j = Some vv /\ length (field_list (v_fields vv)) = length fs).
        { clear - Hn Nj. revert j Nj. induction Hn as [|x y l1 l2 Hxy Hr IHn]; intros [|j] Nj; cbn in *; try discriminate.
          - injection Nj as ->. eauto.
          - eauto. }
        destruct Hx as (vv & Hv1 & Hv2). unfold exec_derived. rewrite (enum_generated LO i vs im j vv Hd Hl Hg Hv1), Hv2, own_calls. apply HF. }
  assert (V : forall fuel t a, eqm (mx_serialize_value pg k m sf fuel t a) (serialize_value k (pr_env pg) m fuel t a)).
  { intros fuel t a. unfold mx_serialize_value, serialize_value. apply eqm_svw. apply D. }
  ands; [exact D|exact V|]. intros fuel t a. apply eqm_bind; [apply V|intros; apply eqm_refl].
Qed.

(** In any program, serializing a value makes exactly the calls [makes] says, which are determined by the
    value and proper ones ([steps_ok]) as long as the hand-written implementations' own are; so all the theorems
    about hand-written implementations (C47, C57, C77) are about any type of the program. *)
Theorem C79_calls {P : Params} {L : Lexer} : forall pg k m sf t a v,
  cfg_ok -> lexer_ok -> wf_env (pr_env pg) -> program_ok pg -> well_behaved pg m sf ->
  valid_input (pr_env pg) any_header m t a v ->
  exists ss, makes pg m t a ss /\ (forall ss', makes pg m t a ss' -> ss' = ss) /\
    steps_ok (pr_env pg) m sf (size_of (pr_env pg) t) (align_of (pr_env pg) t) a ss /\
    (forall f z, (vdepth v < f)%nat ->
       mx_data pg k m sf f t a z = run_steps k (pr_env pg) m sf a ss z /\
       mx_serialize_value pg k m sf f t a z =
         serialize_value_with k (slice_at m (layout_of (pr_env pg) t) a 1) (run_steps k (pr_env pg) m sf a ss) z /\
       mx_serialize pg k m sf f t a z = client_serialize k (pr_env pg) m sf (layout_of (pr_env pg) t) a ss z).
Proof.
  intros pg k m sf t a v C LO HE PO WB (Hw & Ha & Hr).
  destruct (proj1 (main pg k m sf C HE LO PO WB) t a v Hr Hw Ha) as [(ss & K1 & K2 & K3) _].
  exists ss. ands; [exact K1| |exact K2|].
  - intros ss' Hs. symmetry. exact (proj1 (makes_unique pg m LO PO) t a ss K1 ss' Hs).
  - intros f z Hf. specialize (K3 f Hf). ands; [apply K3|revert z; apply eqm_svw; exact K3|].
    revert z. apply eqm_bind; [apply eqm_svw; exact K3|intros; apply eqm_refl].
Qed.

(** What the output is (as C47, for any type of the program). *)
Theorem C79_mixed {P : Params} {L : Lexer} : forall pg k m sf t a v w f,
  let E := pr_env pg in let l := layout_of E t in
  cfg_ok -> alloc_ok -> lexer_ok -> wf_env E -> program_ok pg -> well_behaved pg m sf ->
  storage_ok w -> valid_input E any_header m t a v -> 0 < size_of E t -> (vdepth v < f)%nat ->
  exists ss, makes pg m t a ss /\
    match mx_serialize pg k m sf f t a (from_storage w) with
    | Ok p z =>
        let w' := z_sw z in
        p = push_start (s_pos (sw_s w)) l /\
        s_pos (sw_s w') = steps_end E (push_end (s_pos (sw_s w)) l 1) ss /\
        storage_ok w' /\
        (forall i, i < s_pos (sw_s w) -> s_buf (sw_s w') i = s_buf (sw_s w) i) /\
        region k E m (out_mem (read_base k w') w') (read_base k w') p a (l_size l)
          (push_end (s_pos (sw_s w)) l 1) ss
    | Panic e z =>
        (e = PUser /\ existsb may_panic ss = true \/
         e = PCapacity /\ MAXC < steps_end E (push_end (s_pos (sw_s w)) l 1) ss) /\
        storage_ok (z_sw z) /\
        (forall i, i < s_pos (sw_s w) -> s_buf (sw_s (z_sw z)) i = s_buf (sw_s w) i)
    | Abort => alloc_failed
    | UB | OutOfFuel => False
    end.
Proof.
  intros pg k m sf t a v w f E l C HA LO HE PO WB Hok Hv Hs Hf.
  destruct (C79_calls pg k m sf t a v C LO HE PO WB Hv) as (ss & K1 & _ & K2 & K3).
  exists ss. split; [exact K1|]. destruct (K3 f (from_storage w) Hf) as (_ & _ & ->).
  destruct Hv as (Hw & Ha & _). apply (C47_custom_impl k E m sf l a ss w C HA HE Hok (wf_good C E HE t Hw) Hs Ha K2).
Qed.

(** ** A concrete program

    #[derive(Serialize)]
    struct Outer { val_n: u64, #[ser_with(Proxy)] val_x: Box<u64>, hand: Hand }
    struct Hand { p: Box<u64> }
    Proxy follows the box with push_slice; Hand's own impl follows its box with
    push_and_process and overwrites the number with 99.  The value is a Vec<Outer> of length 2 and capacity 3. *)
From Coq Require Import String.
From Verif Require Import PropStorage PropSerialize Demo WitnessSerialize WitnessDerive.
#[local] Existing Instance ascii_lexer.
Definition outer_decl : input := mkInput [] (id_ "Outer") (DStruct (FNamed
  [plain "val_n"; mkField (Some (id_ "val_x")) [doc_attr; ser_with_attr (path_ "Proxy")] (TyOther 1); plain "hand"])).
Definition t_outer := TStruct (mkLayout 24 8) [(0, t_u64); (8, TBox t_u64); (16, TNamed 1)].
Definition t_hand := TStruct (mkLayout 8 8) [(0, TBox t_u64)].
Definition mixed_env : tenv := fun id => match id with 0%nat => Some t_outer | 1%nat => Some t_hand | _ => None end.
Definition hand_impl (m : mem) (a : N) : list step :=
  match read_word (P := demo) m a with
  | Some p => [SPush 0 u64_layout p 1 [SOver 0 u64_layout (bytes_src (w64 99))]]
  | None => []
  end.
Definition proxy_impl (m : mem) (a : N) : list step :=
  match read_word (P := demo) m a with Some p => [SPushPlain 0 u64_layout p 1] | None => [] end.
Definition mixed_prog : program := {|
  pr_env := mixed_env;
  pr_derived := fun id => match id with 0%nat => Some outer_decl | _ => None end;
  pr_hand := fun id => match id with 1%nat => Some hand_impl | _ => None end;
  pr_with := fun _ _ => proxy_impl |}.
Definition mixed_mem : mem := chunks
  [ (4096, w64 3 ++ w64 8192 ++ w64 2);
    (8192, w64 11 ++ w64 12288 ++ w64 12296);
    (8216, w64 12 ++ w64 12304 ++ w64 12312);
    (12288, w64 21 ++ w64 31 ++ w64 22 ++ w64 32) ].
Definition mixed_val : val :=
  VVec [ VStruct [VPrim 11; VBox (VPrim 21); VStruct [VBox (VPrim 31)]];
         VStruct [VPrim 12; VBox (VPrim 22); VStruct [VBox (VPrim 32)]] ].

Lemma mixed_env_wf : @wf_env demo mixed_env.
Proof.
  assert (W1 : @wf_ty demo mixed_env t_u64) by (apply W_prim; gl).
  assert (W2 : @wf_ty demo mixed_env (TBox t_u64)) by (apply W_box; [exact W1|le]).
  intros [|[|id]] d H; cbn in H; try discriminate; injection H as <-; (split; [|exact Logic.I]).
  - apply W_struct; [gl| |].
    + repeat (apply FO_cons; [num|num|num|intros o u Hin; repeat destruct Hin as [Hin|Hin]; try contradiction; injection Hin as <- <-; vm_compute; first [left; discriminate|right; discriminate]|]).
      apply FO_nil.
    + intros o t Hin. repeat destruct Hin as [Hin|Hin]; try contradiction; injection Hin as <- <-; auto. eapply W_named. reflexivity.
  - apply W_struct; [gl| |].
    + apply FO_cons; [num|num|num|intros o u []|apply FO_nil].
    + intros o t Hin. repeat destruct Hin as [Hin|Hin]; try contradiction; injection Hin as <- <-; auto.
Qed.

Lemma box_repr m a v : @repr demo mixed_env any_header m (TBox t_u64) a v ->
  exists p, @read_word demo m a = Some p /\ p + 8 <= @umod demo.
Proof.
  intros H. inversion H as [|t a' p v' H1 H2 H3 H4| | | | | |]; subst. exists p. split; [exact H1|].
  destruct H2 as (_ & _ & H2). exact H2.
Qed.
Lemma slice_8 p : p + 8 <= @umod demo -> @slice_ok demo u64_layout p 1.
Proof.
  intros H. unfold slice_ok. cbn [u64_layout l_size]. ands; try lia; [gl|]. change (@imax demo) with 9223372036854775807. lia.
Qed.

Theorem C79_hypotheses :
  @lexer_ok ascii_lexer /\ @wf_env demo (pr_env mixed_prog) /\ program_ok mixed_prog /\
  well_behaved (P := demo) mixed_prog mixed_mem 0 /\
  @valid_input demo mixed_env any_header mixed_mem (TVec CPL (TNamed 0)) 4096 mixed_val /\ (vdepth mixed_val < 10)%nat.
Proof.
  ands; [exact ascii_lexer_ok|exact mixed_env_wf| | | |cbn; lia].
  - intros [|[|id]] d H; cbn in H; try discriminate; injection H as <-.
    + cbn [impl_for]. unfold impl_for; cbn. eapply F_struct.
      * reflexivity.
      * split.
        -- intros f a Hf Ha m Hm. cbn in Hf. repeat destruct Hf as [<-|Hf]; cbn in Ha; try contradiction.
           repeat destruct Ha as [<-|Ha]; cbn in Hm; try contradiction; injection Hm as <-; reflexivity.
        -- legal_named [id_ "val_n"; id_ "val_x"; id_ "hand"].
      * reflexivity.
      * vm_compute. reflexivity.
      * intros f Hf. cbn in Hf. repeat destruct Hf as [<-|Hf]; try contradiction.
        -- exists CSerialize. constructor. intros a [].
        -- exists (CWith (path_ "Proxy")). constructor. exists [doc_attr], (ser_with_attr (path_ "Proxy")), [], (path_ "ser_with").
           ands; try reflexivity. intros b [<-|[]]. vm_compute. discriminate.
        -- exists CSerialize. constructor. intros a [].
    + exact Logic.I.
  - split.
    + intros [|[|id]] h H; unfold impl_for in H; cbn in H; try discriminate. injection H as <-.
      intros a v Hr Ha. inversion Hr as [| | | | | | |id' d a' v' Hid Hd]; subst. cbn in Hid. injection Hid as <-.
      inversion Hd as [| | | | |l fs a' vs Hf| |]; subst. inversion Hf as [|off t fs' a' v0 vs' Hb]; subst. rewrite N.add_0_r in Hb.
      destruct (box_repr _ _ _ Hb) as (p & Hp & Hu). unfold hand_impl. rewrite Hp.
      constructor; [|intros ? ? []|constructor]. apply OK_push; [le|dv|dv|apply slice_8; exact Hu|].
      constructor; [|intros ? ? []|constructor]. apply OK_over; [gl|cbn; lia|le|dv|dv].
    + intros w t (id & i & l & fs & dfs & n & f & off & H1 & H2 & H3 & H4 & H5 & H6).
      assert (t = TBox t_u64) as ->.
      { destruct id as [|[|id]]; unfold impl_for in H1; cbn in H1; try discriminate. injection H1 as <-. cbn in H2. injection H2 as <- <-.
        cbn in H3. injection H3 as <-. destruct n as [|[|[|n]]]; cbn in H4; [| | |destruct n; discriminate]; injection H4 as <-.
        - destruct H5 as (pre & x & post & p & H & _). destruct pre; discriminate.
        - injection H6 as <- <-. reflexivity.
        - destruct H5 as (pre & x & post & p & H & _). destruct pre; discriminate. }
      intros a v Hr Ha. destruct (box_repr _ _ _ Hr) as (p & Hp & Hu). cbn [pr_with mixed_prog]. unfold proxy_impl. rewrite Hp.
      constructor; [|intros ? ? []|constructor]. apply OK_plain; [le|dv|dv|apply slice_8; exact Hu].
  - split; [apply W_vec; [eapply W_named; reflexivity|le]|]. split; [le|].
    apply (R_vec (P := demo) _ _ _ _ _ _ 3 8192); [rd|rd|rd|vok|exact Logic.I|].
    assert (HO : forall a n p q x y, @read_int demo mixed_mem a 8 = Some n -> @read_word demo mixed_mem (a + 8) = Some p -> @read_word demo mixed_mem (a + 16) = Some q ->
      @read_int demo mixed_mem p 8 = Some x -> @read_int demo mixed_mem q 8 = Some y ->
      @valid_ref demo u64_layout 1 p -> @valid_ref demo u64_layout 1 q ->
      @repr demo mixed_env any_header mixed_mem (TNamed 0) a (VStruct [VPrim n; VBox (VPrim x); VStruct [VBox (VPrim y)]])).
    { intros a n p q x y H1 H2 H3 H4 H5 H6 H7. eapply R_named; [reflexivity|]. apply R_struct.
      constructor; [rewrite N.add_0_r; apply R_prim; [exact H1|reflexivity]|].
      constructor; [apply (R_box (P := demo) _ _ _ _ _ p); [exact H2|exact H6|exact Logic.I|apply R_prim; [exact H4|reflexivity]]|].
      constructor; [|constructor]. eapply R_named; [reflexivity|]. apply R_struct. constructor; [|constructor].
      rewrite N.add_0_r. apply (R_box (P := demo) _ _ _ _ _ q); [exact H3|exact H7|exact Logic.I|apply R_prim; [exact H5|reflexivity]]. }
    constructor; [eapply HO; try rd; vok|]. constructor; [eapply HO; try rd; vok|constructor].
Qed.

(** The generated code, the proxy and Hand's impl run: with Complete the copies of the numbers in
    Hand are 99, the copies followed by the proxy are as they were, and capacity is 2. *)
Theorem C79_witness : forall k,
  match mx_serialize (P := demo) mixed_prog k mixed_mem 0 10 (TVec CPL (TNamed 0)) 4096 (from_storage demo_w) with
  | Ok p z => (p, s_pos (sw_s (z_sw z)),
       map (fun i => @read_word demo (s_buf (sw_s (z_sw z))) (8 * N.of_nat i)) [0;1;2;3;4;5;6;7;8;9;10;11;12]%nat) =
     (let b := s_ptr (sw_s (z_sw z)) in
     match k with
     | Complete => (0, 104, map Some [2; b + 24; 2; 11; b + 72; b + 80; 12; b + 88; b + 96; 21; 99; 22; 99])
     | PtrOffset => (0, 104, map Some [3; 24; 2; 11; 72; 80; 12; 88; 96; 21; 31; 22; 32])
     | _ => (0, 104, map Some [3; 8192; 2; 11; 12288; 12296; 12; 12304; 12312; 21; 31; 22; 32])
     end)
  | _ => False
  end.
Proof. intros k; destruct k; vm_compute; reflexivity. Qed.
