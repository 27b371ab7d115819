(** * PropNest: how deep the calls of serialize_data nest in any program, and those that never end (C99). *)
From Coq Require Import Arith.
From Verif Require Import Base Types Storage Serializer Serialize Spec ArithFacts StorageHist MemFacts TypeFacts
  Client ClientSpec ClientFacts PropClient PropResume
  GenStorage GenSpec GenFacts PropGen GenSerializer GenSerSpec GenSerAV PropGenSer
  GenClient PropGenClient PropGenSession
  Derive DeriveSpec Mixed MixedFacts PropMixed PropMixedSession GenMixed GenMixedFacts Deleg DelegFacts PropDeleg Nest NestFacts.
Local Open Scope N_scope.

(** The allowance [f] of [g_dx_data] is the number of calls of serialize_data the stack has room for: a call without any is a stack
    overflow ([OutOfFuel]).  None of these theorems asks anything of the program's impls, of the memory or of the storage. *)
Section Any.
Context {P : Params} {L : Lexer} {St : Type}.
Variable R : ra_impl St.
Variable pg : program.
Variable k : kind.
Variable m : mem.

(** A call that returns had calls nested no deeper than there was room for. *)
Theorem C99_needed : forall f t a z u z', g_dx_data R pg k m f t a z = Ok u z' -> nested pg m f (t, a).
Proof. exact (ok_nested R k pg m). Qed.

(** If they nest at most [n] deep, room for [n] is enough: more makes no difference, and the stack does not overflow (the methods of the
    storage coming to an end). *)
Theorem C99_enough : forall n t a, nested pg m n (t, a) -> forall f z, (n <= f)%nat ->
  g_dx_data R pg k m f t a z = g_dx_data R pg k m n t a z /\ (storage_ends R -> g_dx_data R pg k m f t a z <> OutOfFuel).
Proof.
  intros n t a H f z Hf. destruct (nested_same R k pg m n _ H f Hf z) as [X Y]. unfold at_ in X, Y. cbn [fst snd] in X, Y.
  split; [exact X|]. intros HR. rewrite X. exact (Y HR).
Qed.

(** Impls that go round in a circle (or ever further) never return, whatever room there is. *)
Theorem C99_circle : forall S, goes_on pg m S -> forall t a, S (t, a) -> forall f z u z', g_dx_data R pg k m f t a z <> Ok u z'.
Proof. intros S HG t a Hx f z u z' H. exact (endless_never R k pg m S HG _ Hx f z u z' H). Qed.

(** If handing on is the first thing each of them does, the stack overflows and nothing else happens. *)
Definition goes_straight_on (S : ty * N -> Prop) : Prop := forall x, S x ->
  exists id h a off t v ss, x = (TNamed id, a) /\ impl_for pg id = IHand h /\ h m a = SField off t v :: ss /\ S (t, a + off).
Theorem C99_overflow : forall S, goes_straight_on S -> forall t a, S (t, a) -> forall f z, g_dx_data R pg k m f t a z = OutOfFuel.
Proof.
  intros S HG t a Hx f z. revert t a Hx z. induction f as [|f IH]; intros t a Hx z; [reflexivity|].
  destruct (HG _ Hx) as (id & h & a0 & off & t0 & v & ss & He & HI & Hh & HS). injection He as -> ->.
  cbn [g_dx_data]. rewrite HI, Hh. cbn [g_dx_steps g_dx_step]. unfold bind. rewrite (IH _ _ HS z). reflexivity.
Qed.

(** Many values, each under catch_unwind (a stack overflow is not a panic), then finalize. *)
Theorem C99_session : forall n xs, Forall (nested pg m n) xs -> forall f z, (n <= f)%nat ->
  g_dx_session R pg k m f xs z = g_dx_session R pg k m n xs z /\ (storage_ends R -> g_dx_session R pg k m f xs z <> OutOfFuel).
Proof.
  intros n xs H f z Hf. assert (X : same R (g_dx_session R pg k m f xs) (g_dx_session R pg k m n xs)).
  { unfold g_dx_session. apply same_bind; [exact (same_attempts R k pg m n xs H f Hf)|intros outs].
    apply same_bind; [apply same_fine; intros HR; exact (fg_finalize R k HR)|intros _; apply same_fine; intros; apply fine_ret]. }
  destruct (X z) as [X1 X2]. split; [exact X1|]. intros HR. rewrite X1. exact (X2 HR).
Qed.
Theorem C99_session_needed : forall f xs z outs z', g_dx_session R pg k m f xs z = Ok outs z' ->
  Forall2 (fun x o => forall p, snd o = Some p -> nested pg m f x) xs outs.
Proof.
  intros f xs z outs z' H. unfold g_dx_session in H. unfold bind at 1 in H.
  destruct (g_dx_attempt_all R pg k m f xs z) as [outs1 z1|e z1| | |] eqn:Ea; try discriminate. unfold bind in H.
  destruct (g_finalize R k z1) as [u z2|e z2| | |]; try discriminate. unfold ret in H. injection H as <- <-.
  exact (attempts_nested R k pg m f xs z outs1 z1 Ea).
Qed.

(** Values of programs whose impls hand on parts nested less deep than what they were given: one more than the value nests is
    enough for every kind. *)
Theorem C99_valid : forall t a v, let E := pr_env pg in
  cfg_ok -> lexer_ok -> wf_env E -> program_ok pg -> delegates_well pg m -> valid_input E any_header m t a v ->
  nested pg m (S (vdepth v)) (t, a).
Proof.
  intros t a v E C LO HE PO DW (Hw & Ha & Hr). apply (valid_nested pg m C LO HE PO DW (S (vdepth v)) t a v); [tauto|lia].
Qed.
(** So a program that keeps to those rules has no valid value whose impls go round in a circle. *)
Theorem C99_no_circle : forall t a v S, let E := pr_env pg in
  cfg_ok -> lexer_ok -> wf_env E -> program_ok pg -> delegates_well pg m -> valid_input E any_header m t a v ->
  goes_on pg m S -> ~ S (t, a).
Proof.
  intros t a v S E C LO HE PO DW Hv HG HS. exact (endless_not_nested pg m S HG _ _ HS (C99_valid t a v C LO HE PO DW Hv)).
Qed.
End Any.

(** ** Over AlignedVec *)
Section Av.
Context {P : Params} {L : Lexer}.
Variable pg : program.
Variable k : kind.
Variable m : mem.

Lemma fine_put_ptr p : fine (put_ptr p). Proof. apply fine_modify. Qed.
Lemma fine_put_cap p : fine (put_cap p). Proof. apply fine_modify. Qed.
Lemma fine_put_pos p : fine (put_pos p). Proof. apply fine_modify. Qed.
Lemma fine_put_buf p : fine (put_buf p). Proof. apply fine_modify. Qed.
Ltac finw1 := first [apply fine_put_ptr | apply fine_put_cap | apply fine_put_pos | apply fine_put_buf | progress unfold get_cap, get_pos, get_ptr | fin2].
Ltac finw := repeat finw1.
Lemma fine_alloc c : fine (alloc c).
Proof. unfold alloc. finw. intros w. destruct (_ && _); [|discriminate]. destruct (_ =? 0); discriminate. Qed.
Lemma fine_realloc c : fine (realloc c).
Proof. unfold realloc. finw. intros w. cbv zeta. destruct (_ && _); [|discriminate]. destruct (_ =? 0); discriminate. Qed.
Lemma fine_dealloc : fine dealloc.
Proof. unfold dealloc. finw. intros w. cbv zeta. destruct (_ && _); discriminate. Qed.
Lemma fine_write_slice pos l n d : fine (write_slice pos l n d).
Proof. unfold write_slice. finw. intros w. cbv zeta. destruct (_ && _); [apply fine_put_buf|discriminate]. Qed.
Theorem C99_aligned_vec_ends : storage_ends aligned_vec_ra.
Proof.
  unfold storage_ends. cbn [aligned_vec_ra r_st r_write_slice r_correct_ptr aligned_vec i_set_pos i_push_slice_unchecked i_reserve i_shrink_to_fit]. ands.
  - intros n. change (fine (set_pos n)). unfold set_pos. finw.
  - intros l n d sz. change (fine (push_slice_unchecked l n d sz)). unfold push_slice_unchecked. repeat first [apply fine_write_slice | finw1].
  - intros n. change (fine (reserve n)). unfold reserve, grow_for_reserve. cbv zeta.
    repeat first [apply fine_alloc | apply fine_realloc | finw1].
  - change (fine shrink_to_fit). unfold shrink_to_fit. repeat first [apply fine_dealloc | apply fine_realloc | finw1].
  - intros pos l n d. apply fine_write_slice.
  - intros sh pos w. unfold correct_ptr. cbv zeta. destruct (_ && _); [|discriminate]. destruct (read_word _ _); [|discriminate]. apply fine_put_buf.
Qed.

Lemma sim_dx_steps rec rec' : (forall t a, sim (rec t a) (rec' t a)) -> forall ss a, sim (g_dx_steps aligned_vec_ra pg k m rec a ss) (dx_steps pg k m rec' a ss).
Proof.
  intros HR. apply (steps_induct (fun s => forall a, sim (g_dx_step aligned_vec_ra pg k m rec a s) (dx_step pg k m rec' a s))
    (fun ss => forall a, sim (g_dx_steps aligned_vec_ra pg k m rec a ss) (dx_steps pg k m rec' a ss)));
    try (intros; exact (sim_run_step k (pr_env pg) m 0 _ _)).
  - intros off l tp n body IH a. rewrite g_dx_push, dx_push. apply sim_bind; [apply sim_afro|intros ad].
    apply sim_bind; [|intros _; apply sim_ret]. apply sim_pps. apply IH.
  - intros off t v a. apply HR.
  - intros. apply sim_ret.
  - intros s ss I1 I2 a. cbn [g_dx_steps dx_steps]. apply sim_bind; [apply I1|intros _; apply I2].
Qed.
Lemma sim_dx_derived rec rec' i v fs a : (forall t a, sim (rec t a) (rec' t a)) ->
  sim (g_dx_derived aligned_vec_ra pg k m rec i v fs a) (dx_derived pg k m rec' i v fs a).
Proof.
  intros HR. unfold g_dx_derived, dx_derived. destruct (generated i v) as [cs|]; [|apply sim_panics].
  induction cs as [|[c n] cs IH]; cbn [g_dx_exec dx_exec]; [apply sim_ret|].
  destruct (nth_error fs n) as [[off t]|]; [|apply sim_panics]. apply sim_bind; [|intros _; exact IH].
  destruct c as [|w]; [apply HR|apply sim_dx_steps; exact HR].
Qed.
Lemma sim_g_dx_data : forall f t a, sim (g_dx_data aligned_vec_ra pg k m f t a) (dx_data pg k m f t a).
Proof.
  induction f as [|f IH]; intros t a; cbn [g_dx_data dx_data]; [apply sim_fuel|].
  destruct t as [l ok|t|vl t|vl|t n|l fs|l d vss|id].
  - apply sim_ret.
  - unfold g_ser_box, ser_box, push_and_process. destruct (_ =? 0); [apply sim_ret|]. apply sim_bind; [apply sim_afr|intros pa].
    apply sim_bind; [apply sim_load|intros p]. apply sim_bind; [|intros; apply sim_ret]. apply sim_pps, IH.
  - unfold g_ser_vec, ser_vec. destruct (_ =? 0); [apply sim_ret|]. apply sim_bind; [apply sim_load|intros len].
    destruct (len =? 0).
    + apply sim_overwrite_with. apply sim_bind; [apply sim_load|intros c]. destruct (negb _); [|apply sim_ret].
      apply sim_bind; [apply sim_const|intros vo]. apply sim_overwrite_empty.
    + apply sim_bind; [apply sim_overwrite_with; apply sim_bind; [apply sim_load|intros c]; destruct (negb _); [|apply sim_ret];
        apply sim_bind; [apply sim_const|intros vo]; apply sim_bind; [apply sim_afro|intros ad; apply sim_overwrite]|intros _].
      apply sim_bind; [apply sim_const|intros vo]. apply sim_bind; [apply sim_afro|intros pa]. apply sim_bind; [apply sim_load|intros p].
      apply sim_bind; [|intros; apply sim_ret]. apply sim_pps, sim_for_elems, IH.
  - exact (sim_ser_data k (pr_env pg) m 1 (TString vl) a).
  - apply sim_for_elems, IH.
  - apply sim_for_fields, IH.
  - destruct (read_discr m a d) as [v|]; [|apply sim_ub]. destruct (nth_error vss v); [|apply sim_ub]. apply sim_for_fields, IH.
  - destruct (impl_for pg id) as [i|h|]; [|apply sim_dx_steps, IH|apply sim_panics].
    destruct (pr_env pg id) as [[| | | | |l fs|l d vss|]|]; try apply sim_panics.
    + apply sim_dx_derived, IH.
    + destruct (read_discr m a d) as [v|]; [|apply sim_ub]. destruct (nth_error vss v); [|apply sim_ub]. apply sim_dx_derived, IH.
Qed.

(** The same of the code of C92, whatever the allocator does. *)
Theorem C99_aligned_vec :
  (forall f t a z u z', dx_data pg k m f t a z = Ok u z' -> nested pg m f (t, a)) /\
  (forall n t a, nested pg m n (t, a) -> forall f z, (n <= f)%nat ->
     dx_data pg k m f t a z = dx_data pg k m n t a z /\ dx_data pg k m f t a z <> OutOfFuel) /\
  (forall S, goes_on pg m S -> forall t a, S (t, a) -> forall f z u z', dx_data pg k m f t a z <> Ok u z') /\
  (forall S, goes_straight_on pg m S -> forall t a, S (t, a) -> forall f z, dx_data pg k m f t a z = OutOfFuel).
Proof.
  assert (B : forall f t a z, on_state to_zs (g_dx_data aligned_vec_ra pg k m f t a (mkGZ (z_sw z) (z_map z) (z_ptrs z))) = dx_data pg k m f t a z).
  { intros f t a [w pm pt]. apply sim_g_dx_data. }
  assert (N : forall f t a z u z', dx_data pg k m f t a z = Ok u z' -> nested pg m f (t, a)).
  { intros f t a z u z' H. rewrite <- B in H.
    destruct (g_dx_data aligned_vec_ra pg k m f t a (mkGZ (z_sw z) (z_map z) (z_ptrs z))) as [u0 z0| | | |] eqn:Eg; try discriminate.
    exact (C99_needed aligned_vec_ra pg k m _ _ _ _ _ _ Eg). }
  ands.
  - exact N.
  - intros n t a H f z Hf. rewrite <- !B.
    destruct (C99_enough aligned_vec_ra pg k m n t a H f (mkGZ (z_sw z) (z_map z) (z_ptrs z)) Hf) as [X Y]. split; [rewrite X; reflexivity|].
    specialize (Y C99_aligned_vec_ends).
    destruct (g_dx_data aligned_vec_ra pg k m f t a (mkGZ (z_sw z) (z_map z) (z_ptrs z))); cbn [on_state]; congruence.
  - intros S HG t a HS f z u z' H. exact (endless_not_nested pg m S HG _ _ HS (N _ _ _ _ _ _ H)).
  - intros S HG t a HS f z. rewrite <- B, (C99_overflow aligned_vec_ra pg k m S HG t a HS). reflexivity.
Qed.
End Av.

(** ** Witnesses *)
From Coq Require Import String.
From Verif Require Import PropStorage PropSerialize Demo WitnessSerialize WitnessDerive.
#[local] Existing Instance ascii_lexer.
(** The value of C92: Box, Wrap, Outer, and in it the Hand or the u64: four calls at once. *)
Theorem C99_witness :
  nested (P := demo) deleg_prog deleg_mem 4 (TBox (TNamed 2), 4096) /\ ~ nested (P := demo) deleg_prog deleg_mem 3 (TBox (TNamed 2), 4096) /\
  callees (P := demo) deleg_prog deleg_mem (TNamed 2, 8192) = [(TNamed 0, 8192)] /\
  callees (P := demo) deleg_prog deleg_mem (TNamed 0, 8192) = [(t_u64, 8192); (TNamed 1, 8208)] /\
  forall k,
    dx_serialize (P := demo) deleg_prog k deleg_mem 3 (TBox (TNamed 2)) 4096 (from_storage demo_w) = OutOfFuel /\
    match dx_serialize (P := demo) deleg_prog k deleg_mem 4 (TBox (TNamed 2)) 4096 (from_storage demo_w) with Ok p _ => p = 0 | _ => False end.
Proof.
  split; [apply nestedb_iff; vm_compute; reflexivity|]. split; [rewrite <- nestedb_iff; vm_compute; discriminate|].
  split; [vm_compute; reflexivity|]. split; [vm_compute; reflexivity|]. intros k. destruct k; split; vm_compute; reflexivity.
Qed.

(** struct B { inner: A } with derive(Serialize), and an A that is serialized as a B:
    impl Serialize for A { fn serialize_data(&self, s) { B::from_ref(self).serialize_data(s) } }.  It compiles; it never returns. *)
Definition circle_decl : input := mkInput [] (id_ "B") (DStruct (FNamed [plain "inner"])).
Definition circle_env : tenv := fun id => match id with
  | 0%nat => Some (TStruct (mkLayout 8 8) [(0, TNamed 1)])
  | 1%nat => Some (TStruct (mkLayout 8 8) [(0, t_u64)])
  | _ => None end.
Definition circle_prog : program := {|
  pr_env := circle_env;
  pr_derived := fun id => match id with 0%nat => Some circle_decl | _ => None end;
  pr_hand := fun id => match id with 1%nat => Some (fun _ _ => [SField 0 (TNamed 0) (VStruct [VStruct [VPrim 7]])]) | _ => None end;
  pr_with := fun _ _ _ _ => [] |}.
Definition circle_mem : mem := chunks [(4096, w64 7)].
Definition in_circle (x : ty * N) : Prop := x = (TNamed 0, 4096) \/ x = (TNamed 1, 4096).
Theorem C99_circle_witness :
  goes_on (P := demo) circle_prog circle_mem in_circle /\ in_circle (TNamed 1, 4096) /\
  @valid_input demo circle_env any_header circle_mem (TNamed 1) 4096 (VStruct [VPrim 7]) /\
  forall k f p z z', dx_serialize (P := demo) circle_prog k circle_mem f (TNamed 1) 4096 z <> Ok p z'.
Proof.
  assert (G : goes_on (P := demo) circle_prog circle_mem in_circle).
  { intros x [->| ->]; [exists (TNamed 1, 4096)|exists (TNamed 0, 4096)]; (split; [vm_compute; auto|]); [right|left]; reflexivity. }
  split; [exact G|]. split; [right; reflexivity|]. split.
  - split; [eapply W_named; reflexivity|]. split; [vm_compute; discriminate|].
    eapply R_named; [reflexivity|]. apply R_struct. constructor; [|constructor]. apply R_prim; [vm_compute; reflexivity|reflexivity].
  - intros k f p z z' H. unfold dx_serialize, dx_serialize_value in H.
    assert (X : forall z u z', dx_data (P := demo) circle_prog k circle_mem f (TNamed 1) 4096 z <> Ok u z').
    { intros z0 u0 z0'. apply (proj1 (proj2 (proj2 (C99_aligned_vec (P := demo) circle_prog k circle_mem))) _ G). right. reflexivity. }
    revert H. apply Depth.fails_1. apply Depth.fails_svw. exact X.
Qed.
