(** * NestFacts: proofs for C99. *)
From Coq Require Import Arith.
From Verif Require Import Base Types Storage Serializer Serialize Client Spec ClientSpec ArithFacts TypeFacts SerMain SerRoot SerProps ClientFacts Build Depth
  Derive DeriveSpec DeriveFacts PropDerive Mixed MixedFacts PropMixed MixedValid
  GenStorage GenSerializer GenClient GenClientSpec GenClientFacts GenMixed GenMixedFacts Deleg DelegFacts Nest.
From Coq Require Import ZifyBool ZifyNat ZifyN.
Local Open Scope N_scope.

(** ** What comes to an end *)
Section Fine.
Context {P : Params}.
Definition fine {S A} (f : M S A) : Prop := forall z, f z <> OutOfFuel.
Lemma fine_ret {S A} (x : A) : fine (S := S) (ret x). Proof. discriminate. Qed.
Lemma fine_panics {S A} p : fine (S := S) (A := A) (panics p). Proof. discriminate. Qed.
Lemma fine_ub {S A} : fine (S := S) (A := A) ub. Proof. discriminate. Qed.
Lemma fine_gets {S A} (f : S -> A) : fine (gets f). Proof. discriminate. Qed.
Lemma fine_modify {S} (f : S -> S) : fine (modify f). Proof. discriminate. Qed.
Lemma fine_bind {S A B} (f : M S A) (g : A -> M S B) : fine f -> (forall a, fine (g a)) -> fine (bind f g).
Proof. intros H1 H2 z. unfold bind. specialize (H1 z). destruct (f z); try discriminate; [apply H2|congruence]. Qed.
End Fine.
Ltac fin0 := first
  [ apply fine_ret | apply fine_panics | apply fine_ub | apply fine_gets | apply fine_modify | assumption
  | apply fine_bind; [|intros ?]
  | match goal with |- fine (if ?b then _ else _) => destruct b end
  | match goal with |- fine (match ?b with _ => _ end) => destruct b end ].
Ltac fin := repeat fin0.
Section Fine2.
Context {P : Params}.
Lemma fine_dassert {S} (c : M S bool) : fine c -> fine (dassert c).
Proof. intros H. unfold dassert, assert_or. fin. Qed.
Lemma fine_assert {S} p b : fine (S := S) (assert_or p b). Proof. unfold assert_or. fin. Qed.
Lemma fine_add {S} a b : fine (S := S) (add_u a b). Proof. unfold add_u. fin. Qed.
Lemma fine_sub {S} a b : fine (S := S) (sub_u a b). Proof. unfold sub_u. fin. Qed.
Lemma fine_mul {S} a b : fine (S := S) (mul_u a b). Proof. unfold mul_u. fin. Qed.
Lemma fine_npot {S} n : fine (S := S) (next_power_of_two n). Proof. unfold next_power_of_two. fin. Qed.
Lemma fine_const {S A} (o : option A) : fine (S := S) (const_or o). Proof. unfold const_or. fin. Qed.
Lemma fine_load {S} m a : fine (S := S) (load_word m a). Proof. unfold load_word. fin. Qed.
End Fine2.
Ltac fin1 := first [apply fine_dassert | apply fine_assert | apply fine_add | apply fine_sub | apply fine_mul | apply fine_npot
  | apply fine_const | apply fine_load | fin0].
Ltac fins := repeat fin1.
Section Fine3.
Context {P : Params}.
Lemma fine_aligned {S} a b : fine (S := S) (is_aligned_to a b). Proof. unfold is_aligned_to. fins. Qed.
Lemma fine_align_up {S} a b : fine (S := S) (align_up_to a b). Proof. unfold align_up_to. fins. Qed.
Lemma fine_amc {S} a : fine (S := S) (aligned_max_capacity a). Proof. unfold aligned_max_capacity. fins. Qed.
Lemma fine_pos_for pm a {S} : fine (S := S) (pos_for_addr pm a). Proof. unfold pos_for_addr, addr_n. fins. Qed.
Lemma fine_afr k a {S} : fine (S := S) (addr_from_ref k a). Proof. unfold addr_from_ref. fins. Qed.
Lemma fine_afro k a o {S} : fine (S := S) (addr_from_ref_offset k a o). Proof. unfold addr_from_ref_offset. fins. Qed.
End Fine3.
Ltac fin2 := first [apply fine_aligned | apply fine_align_up | apply fine_amc | apply fine_pos_for | apply fine_afr | apply fine_afro | fin1].
Ltac finz := repeat fin2.

(** ** Over any storage *)
Section G.
Context {P : Params} {L : Lexer}.
Context {St : Type}.
Variable R : ra_impl St.
Variable k : kind.
Variable pg : program.
Variable m : mem.
Notation E := (pr_env pg).
Notation I := (r_st R).
Section Ends.
Hypothesis HR : storage_ends R.
Lemma fg_set_pos n : fine (i_set_pos I n). Proof. intros s. apply HR. Qed.
Lemma fg_psu l n d sz : fine (i_push_slice_unchecked I l n d sz). Proof. intros s. apply HR. Qed.
Lemma fg_reserve n : fine (i_reserve I n). Proof. intros s. apply HR. Qed.
Lemma fg_shrink : fine (i_shrink_to_fit I). Proof. intros s. apply HR. Qed.
Lemma fg_ws pos l n d : fine (r_write_slice R pos l n d). Proof. intros s. apply HR. Qed.
Lemma fg_cp sh pos : fine (r_correct_ptr R sh pos). Proof. intros s. apply HR. Qed.
Lemma fine_glift {A} (f : M St A) : fine f -> fine (glift f).
Proof. intros H z. unfold glift. specialize (H (gz_st z)). destruct (f (gz_st z)); congruence. Qed.
Ltac fg := repeat first [apply fine_glift | apply fg_set_pos | apply fg_psu | apply fg_reserve | apply fg_shrink | apply fg_ws | apply fg_cp | fin2].
Lemma fg_align a : fine (g_align I a). Proof. unfold g_align. fg. Qed.
Lemma fg_align_for a : fine (g_align_for I a). Proof. unfold g_align_for. destruct (_ <? _); [apply fg_align|fg]. Qed.
Lemma fg_align_after a : fine (g_align_after I a). Proof. unfold g_align_after. destruct (_ <? _); [apply fg_align|fg]. Qed.
Lemma fg_push_slice l n d : fine (g_push_slice I l n d).
Proof. unfold g_push_slice. repeat first [apply fg_reserve | apply fg_psu | apply fg_align_for | apply fg_align_after | fin2]. Qed.
Lemma fg_push_empty_slice l n : fine (g_push_empty_slice I l n).
Proof. unfold g_push_empty_slice. repeat first [apply fg_reserve | apply fg_set_pos | apply fg_align_for | apply fg_align_after | fin2]. Qed.
Lemma fg_run_op o : fine (g_run_op I o).
Proof.
  destruct o; cbn [g_run_op]; cbv zeta beta; unfold g_push, g_push_bytes, g_push_empty, g_align_after_any, g_clear;
    repeat first [apply fg_push_slice | apply fg_push_empty_slice | apply fg_align_for | apply fg_align_after | apply fg_align
      | apply fg_reserve | apply fg_set_pos | apply fg_shrink | fin2].
Qed.
Lemma fg_store_call o : fine (g_store_call R o).
Proof. intros z. unfold g_store_call. pose proof (fg_run_op o (gz_st z)). destruct (g_run_op _ o (gz_st z)); congruence. Qed.
Lemma fg_push_raw s : fine (g_push_raw_slice R s). Proof. unfold g_push_raw_slice. apply fine_glift, fg_push_slice. Qed.
Lemma fg_over_ptr a b : fine (g_overwrite_ptr R k a b).
Proof.
  destruct k; cbn [g_overwrite_ptr]; unfold g_po_overwrite_ptr, g_co_overwrite_ptr, g_capacity, g_write, g_get_ptrs, g_set_ptrs; cbv zeta; fg.
Qed.
Lemma fg_do_over a l d : fine (g_do_overwrite R a l d). Proof. unfold g_do_overwrite, g_get_map, g_write. fg. Qed.
Lemma fg_over a l d : fine (g_overwrite R k a l d). Proof. destruct k; cbn [g_overwrite]; try apply fine_ret. apply fg_do_over. Qed.
Lemma fg_over_with (f : M (gz St) unit) : fine f -> fine (g_overwrite_with k f). Proof. intros H. destruct k; cbn [g_overwrite_with]; try apply fine_ret. exact H. Qed.
Lemma fg_ser_push s a : fine (g_ser_push_slice R k s a).
Proof.
  pose proof fg_over_ptr. destruct k; cbn [g_ser_push_slice g_push_and_process_slice]; unfold g_pw_push_slice, g_get_map;
    repeat first [apply fg_push_raw | apply H | fin2].
Qed.
Lemma fg_empty vo dg a : fine (g_overwrite_empty R k vo dg a).
Proof. unfold g_overwrite_empty. cbv zeta. repeat first [apply fg_over | fin2]. Qed.
Lemma fg_string vl a : fine (g_ser_string R k m vl a).
Proof. unfold g_ser_string. repeat first [apply fg_over | apply fg_over_with | apply fg_empty | apply fg_ser_push | fin2]. Qed.
Lemma fg_correct_all sh l : fine (g_correct_all R sh l).
Proof. induction l; cbn [g_correct_all]; [apply fine_ret|]. apply fine_bind; [apply fg_cp|intros; exact IHl]. Qed.
Lemma fg_correct_past l p : fine (g_correct_past R l p).
Proof. induction l; cbn [g_correct_past]; [apply fine_ret|]. apply fine_bind; [|intros; exact IHl]. unfold g_correct_ptrs. destruct (negb _); [apply fg_correct_all|apply fine_ret]. Qed.
Lemma fg_finalize : fine (g_finalize R k).
Proof.
  destruct k; cbn [g_finalize]; try apply fine_ret. unfold g_co_finalize, g_get_ptrs, g_correct_ptrs.
  repeat first [apply fine_glift | apply fg_correct_all | apply fg_correct_past | fin2].
Qed.
End Ends.

(** *** Bodies whose calls do the same *)
Definition same {A} (f g : M (gz St) A) : Prop := forall z, f z = g z /\ (storage_ends R -> g z <> OutOfFuel).
Definition fails {A} (f : M (gz St) A) : Prop := forall z a z', f z <> Ok a z'.
Lemma same_fine {A} (f : M (gz St) A) : (storage_ends R -> fine f) -> same f f. Proof. intros H z. split; [reflexivity|intros HR; apply H, HR]. Qed.
Lemma same_bind {A B} (f f' : M (gz St) A) (g g' : A -> M (gz St) B) : same f f' -> (forall a, same (g a) (g' a)) -> same (bind f g) (bind f' g').
Proof.
  intros H1 H2 z. split.
  - unfold bind. rewrite (proj1 (H1 z)). destruct (f' z); try reflexivity. apply H2.
  - intros HR. apply fine_bind; [intros z'; apply (proj2 (H1 z') HR)|intros a z'; apply (proj2 (H2 a z') HR)].
Qed.
Lemma fails_1 {A B} (f : M (gz St) A) (g : A -> M (gz St) B) : fails f -> fails (bind f g).
Proof. intros H z a z'. unfold bind. specialize (H z). destruct (f z); try discriminate. exfalso. eapply H. reflexivity. Qed.
Lemma fails_2 {A B} (f : M (gz St) A) (g : A -> M (gz St) B) : (forall a, fails (g a)) -> fails (bind f g).
Proof. intros H z a z'. unfold bind. destruct (f z); try discriminate. apply H. Qed.
Lemma same_pps s a (f g : M (gz St) unit) : same f g -> same (g_push_and_process_slice R k s a f) (g_push_and_process_slice R k s a g).
Proof.
  intros H. pose proof (fun HR => fg_over_ptr HR) as HO. destruct k; cbn [g_push_and_process_slice]; unfold g_get_map, g_set_map;
    repeat (first [exact H | apply same_fine; intros HR; first [exact (HO HR _ _) | exact (fg_push_raw HR _) | apply fine_glift; exact (fg_push_slice HR _ _ _) | solve [finz]] | apply same_bind; [|intros ?]]).
Qed.
Lemma fails_pps s a (f : M (gz St) unit) : fails f -> fails (g_push_and_process_slice R k s a f).
Proof. intros H. destruct k; cbn [g_push_and_process_slice]; repeat first [apply fails_1; exact H|apply fails_2; intros ?]. Qed.
Lemma same_svw s (f g : M (gz St) unit) : same f g -> same (g_serialize_value_with R k s f) (g_serialize_value_with R k s g).
Proof.
  intros H. destruct k; cbn [g_serialize_value_with]; unfold g_set_map;
    repeat (first [exact H | apply same_fine; intros HR; first [exact (fg_push_raw HR _) | solve [finz]] | apply same_bind; [|intros ?]]).
Qed.
Lemma fails_svw s (f : M (gz St) unit) : fails f -> fails (g_serialize_value_with R k s f).
Proof. intros H. destruct k; cbn [g_serialize_value_with]; repeat first [apply fails_1; exact H|apply fails_2; intros ?]. Qed.

Lemma same_load {A} a (f g : N -> M (gz St) A) : (forall w, read_word m a = Some w -> same (f w) (g w)) ->
  same (bind (load_word m a) f) (bind (load_word m a) g).
Proof.
  intros H z. unfold bind, load_word. destruct (read_word m a) as [w|]; [apply (H w eq_refl)|split; [reflexivity|discriminate]].
Qed.
Lemma fails_load {A} a (f : N -> M (gz St) A) : (forall w, read_word m a = Some w -> fails (f w)) -> fails (bind (load_word m a) f).
Proof. intros H z. unfold bind, load_word. destruct (read_word m a) as [w|]; [apply (H w eq_refl)|discriminate]. Qed.
Lemma elems_S t n a : each_elem pg t (S n) a = (t, a) :: each_elem pg t n (a + size_of E t).
Proof.
  unfold each_elem. cbn [seq map]. f_equal; [f_equal; lia|]. rewrite <- seq_shift, map_map. apply map_ext. intros i. f_equal. lia.
Qed.

(** *** One call *)
Definition at_ (r : ty -> N -> M (gz St) unit) (y : ty * N) : M (gz St) unit := r (fst y) (snd y).
Lemma same_steps r r' : forall ss a, (forall y, In y (flat_map (handed a) ss) -> same (at_ r y) (at_ r' y)) ->
  same (g_dx_steps R pg k m r a ss) (g_dx_steps R pg k m r' a ss).
Proof.
  apply (steps_induct
    (fun s => forall a, (forall y, In y (handed a s) -> same (at_ r y) (at_ r' y)) -> same (g_dx_step R pg k m r a s) (g_dx_step R pg k m r' a s))
    (fun ss => forall a, (forall y, In y (flat_map (handed a) ss) -> same (at_ r y) (at_ r' y)) ->
       same (g_dx_steps R pg k m r a ss) (g_dx_steps R pg k m r' a ss))).
  - intros off l tp n body IH a H. rewrite !g_dx_push. apply same_bind; [apply same_fine; intros; apply fine_afro|intros ad].
    apply same_bind; [|intros; apply same_fine; intros; apply fine_ret]. apply same_pps, IH. exact H.
  - intros. apply same_fine. intros HR. cbn [g_dx_step g_run_step]. repeat first [apply (fg_ser_push HR) | fin2].
  - intros. apply same_fine. intros HR. cbn [g_dx_step g_run_step]. repeat first [apply (fg_push_raw HR) | fin2].
  - intros. apply same_fine. intros HR. cbn [g_dx_step g_run_step]. apply (fg_over_with). repeat first [apply (fg_over HR) | fin2].
  - intros off t v a H. cbn [g_dx_step]. exact (H (t, a + off) (or_introl eq_refl)).
  - intros. apply same_fine. intros HR. cbn [g_dx_step g_run_step]. apply (fg_store_call HR).
  - intros. apply same_fine. intros HR. apply fine_panics.
  - intros. apply same_fine. intros HR. apply fine_ret.
  - intros s ss IH1 IH2 a H. cbn [g_dx_steps flat_map] in *. apply same_bind; [apply IH1|intros _; apply IH2]; intros y Hy; apply H, in_or_app; auto.
Qed.
Lemma fails_steps r : forall ss a y, In y (flat_map (handed a) ss) -> fails (at_ r y) -> fails (g_dx_steps R pg k m r a ss).
Proof.
  apply (steps_induct
    (fun s => forall a y, In y (handed a s) -> fails (at_ r y) -> fails (g_dx_step R pg k m r a s))
    (fun ss => forall a y, In y (flat_map (handed a) ss) -> fails (at_ r y) -> fails (g_dx_steps R pg k m r a ss))); try (intros; contradiction).
  - intros off l tp n body IH a y Hy H. rewrite g_dx_push. apply fails_2. intros ad. apply fails_1, fails_pps. exact (IH tp y Hy H).
  - intros off t v a y [<-|[]] H. exact H.
  - intros s ss IH1 IH2 a y Hy H. cbn [g_dx_steps flat_map] in *. apply in_app_or in Hy. destruct Hy as [Hy|Hy].
    + apply fails_1. exact (IH1 a y Hy H).
    + apply fails_2. intros _. exact (IH2 a y Hy H).
Qed.
Lemma same_fields r r' a : forall fs, (forall y, In y (each_field fs a) -> same (at_ r y) (at_ r' y)) -> same (g_for_fields fs a r) (g_for_fields fs a r').
Proof.
  induction fs as [|[off t] fs IH]; intros H; cbn [g_for_fields]; [apply same_fine; intros; apply fine_ret|].
  apply same_bind; [exact (H (t, a + off) (or_introl eq_refl))|intros _; apply IH; intros y Hy; apply H; right; exact Hy].
Qed.
Lemma fails_fields r a y : fails (at_ r y) -> forall fs, In y (each_field fs a) -> fails (g_for_fields fs a r).
Proof.
  intros H. induction fs as [|[off t] fs IH]; intros Hy; [contradiction|]. cbn [g_for_fields]. destruct Hy as [<-|Hy].
  - apply fails_1. exact H.
  - apply fails_2. intros _. exact (IH Hy).
Qed.
Lemma same_elems r r' t : forall n a, (forall y, In y (each_elem pg t n a) -> same (at_ r y) (at_ r' y)) ->
  same (g_for_elems n a (size_of E t) (r t)) (g_for_elems n a (size_of E t) (r' t)).
Proof.
  induction n as [|n IH]; intros a H; cbn [g_for_elems]; [apply same_fine; intros; apply fine_ret|]. rewrite elems_S in H.
  apply same_bind; [exact (H (t, a) (or_introl eq_refl))|intros _; apply IH; intros y Hy; apply H; right; exact Hy].
Qed.
Lemma fails_elems r t y : fails (at_ r y) -> forall n a, In y (each_elem pg t n a) -> fails (g_for_elems n a (size_of E t) (r t)).
Proof.
  intros H. induction n as [|n IH]; intros a Hy; [contradiction|]. rewrite elems_S in Hy. cbn [g_for_elems]. destruct Hy as [<-|Hy].
  - apply fails_1. exact H.
  - apply fails_2. intros _. exact (IH _ Hy).
Qed.
Lemma same_derived r r' i v fs a : (forall y, In y (each_statement pg m i v fs a) -> same (at_ r y) (at_ r' y)) ->
  same (g_dx_derived R pg k m r i v fs a) (g_dx_derived R pg k m r' i v fs a).
Proof.
  unfold each_statement, g_dx_derived. destruct (generated i v) as [cs|]; [|intros; apply same_fine; intros; apply fine_panics].
  induction cs as [|[c n] cs IH]; intros H; cbn [g_dx_exec]; [apply same_fine; intros; apply fine_ret|]. cbn [flat_map fst snd] in H.
  destruct (nth_error fs n) as [[off t]|]; [|apply same_fine; intros; apply fine_panics].
  apply same_bind; [|intros _; apply IH; intros y Hy; apply H, in_or_app; right; exact Hy].
  destruct c as [|w]; cbn [g_dx_callee through] in *.
  - exact (H (t, a + off) (or_introl eq_refl)).
  - apply same_steps. intros y Hy. apply H, in_or_app. left. exact Hy.
Qed.
Lemma fails_derived r i v fs a y : fails (at_ r y) -> In y (each_statement pg m i v fs a) -> fails (g_dx_derived R pg k m r i v fs a).
Proof.
  intros Hf. unfold each_statement, g_dx_derived. destruct (generated i v) as [cs|]; [|contradiction].
  induction cs as [|[c n] cs IH]; intros H; cbn [g_dx_exec]; [contradiction|]. cbn [flat_map fst snd] in H.
  destruct (nth_error fs n) as [[off t]|]; [|discriminate]. apply in_app_or in H. destruct H as [H|H]; [apply fails_1|apply fails_2; intros _; exact (IH H)].
  destruct c as [|w]; cbn [g_dx_callee through] in *.
  - destruct H as [<-|[]]. exact Hf.
  - eapply fails_steps; eassumption.
Qed.
Notation dx := (g_dx_data R pg k m).
Lemma same_data f g t a : (forall y, In y (callees pg m (t, a)) -> same (at_ (dx f) y) (at_ (dx g) y)) ->
  same (dx (S f) t a) (dx (S g) t a).
Proof.
  intros H. cbn [g_dx_data]. cbn [callees] in H.
  destruct t as [l ok|t|vl t|vl|t n|l fs|l d vss|id].
  - apply same_fine. intros; apply fine_ret.
  - unfold g_ser_box. destruct (size_of E t =? 0); [apply same_fine; intros; apply fine_ret|].
    apply same_bind; [apply same_fine; intros; apply fine_afr|intros pa]. apply same_load. intros p Hp. rewrite Hp in H.
    apply same_bind; [|intros; apply same_fine; intros; apply fine_ret]. apply same_pps. exact (H (t, p) (or_introl eq_refl)).
  - unfold g_ser_vec. destruct (size_of E t =? 0); [apply same_fine; intros; apply fine_ret|].
    apply same_load. intros len Hl. rewrite Hl in H. destruct (len =? 0).
    { apply same_fine. intros HR. apply fg_over_with. repeat first [apply (fg_empty HR) | fin2]. }
    apply same_bind; [apply same_fine; intros HR; apply fg_over_with; repeat first [apply (fg_over HR) | fin2]|intros _].
    apply same_bind; [apply same_fine; intros; apply fine_const|intros vo].
    apply same_bind; [apply same_fine; intros; apply fine_afro|intros pa]. apply same_load. intros p Hp. rewrite Hp in H.
    apply same_bind; [|intros; apply same_fine; intros; apply fine_ret]. apply same_pps, same_elems. exact H.
  - apply same_fine. intros HR. apply (fg_string HR).
  - apply same_elems. exact H.
  - apply same_fields. exact H.
  - unfold each_of_variant in H. destruct (read_discr m a d) as [v|]; [|apply same_fine; intros; apply fine_ub].
    destruct (nth_error vss v) as [fs|]; [|apply same_fine; intros; apply fine_ub]. apply same_fields. exact H.
  - destruct (impl_for pg id) as [i|h|]; [|apply same_steps; exact H|apply same_fine; intros; apply fine_panics].
    destruct (E id) as [[| | | | |l fs|l d vss|]|]; try (apply same_fine; intros; apply fine_panics).
    + apply same_derived. exact H.
    + unfold each_of_variant in H. destruct (read_discr m a d) as [v|]; [|apply same_fine; intros; apply fine_ub].
      destruct (nth_error vss v) as [fs|]; [|apply same_fine; intros; apply fine_ub]. apply same_derived. exact H.
Qed.
Lemma fails_data f t a y : In y (callees pg m (t, a)) -> fails (at_ (dx f) y) -> fails (dx (S f) t a).
Proof.
  intros H Hf. cbn [g_dx_data]. cbn [callees] in H.
  destruct t as [l ok|t|vl t|vl|t n|l fs|l d vss|id]; try contradiction.
  - unfold g_ser_box. destruct (size_of E t =? 0); [contradiction|]. apply fails_2. intros pa.
    apply fails_load. intros p Hp. rewrite Hp in H. destruct H as [<-|[]]. apply fails_1, fails_pps. exact Hf.
  - unfold g_ser_vec. destruct (size_of E t =? 0); [contradiction|]. apply fails_load. intros len Hl. rewrite Hl in H.
    destruct (N.eqb_spec len 0) as [->|Hn]; [destruct (read_word m (a + ptr_off vl)); contradiction|].
    apply fails_2. intros _. apply fails_2. intros vo. apply fails_2. intros pa. apply fails_load. intros p Hp. rewrite Hp in H.
    apply fails_1, fails_pps. exact (fails_elems _ t y Hf _ _ H).
  - exact (fails_elems _ t y Hf _ _ H).
  - exact (fails_fields _ a y Hf fs H).
  - unfold each_of_variant in H. destruct (read_discr m a d) as [v|]; [|contradiction]. destruct (nth_error vss v) as [fs|]; [|contradiction].
    exact (fails_fields _ a y Hf fs H).
  - destruct (impl_for pg id) as [i|h|]; [|exact (fails_steps _ _ a y H Hf)|contradiction].
    destruct (E id) as [[| | | | |l fs|l d vss|]|]; try contradiction.
    + exact (fails_derived _ i None fs a y Hf H).
    + unfold each_of_variant in H. destruct (read_discr m a d) as [v|]; [|contradiction]. destruct (nth_error vss v) as [fs|]; [|contradiction].
      exact (fails_derived _ i (Some v) fs a y Hf H).
Qed.

(** *** All of them *)
Lemma nested_same : forall n x, nested pg m n x -> forall f, (n <= f)%nat -> same (at_ (dx f) x) (at_ (dx n) x).
Proof.
  intros n x H. induction H as [n [t a] _ IH]. intros [|f] Hf; [lia|]. unfold at_. cbn [fst snd]. apply same_data.
  intros y Hy. apply (IH y Hy). lia.
Qed.
Lemma one_by_one {A} (Q : A -> Prop) : (forall x, Q x \/ ~ Q x) -> forall l, (forall y, In y l -> Q y) \/ exists y, In y l /\ ~ Q y.
Proof.
  intros H l. induction l as [|x l [IH|(y & I1 & I2)]].
  - left. intros y [].
  - destruct (H x) as [Hx|Hx]; [left; intros y [<-|Hy]; auto|right; exists x; split; [left; reflexivity|exact Hx]].
  - right. exists y. split; [right; exact I1|exact I2].
Qed.
Lemma nested_split : forall n x, nested pg m n x \/ (forall f, (f <= n)%nat -> fails (at_ (dx f) x)).
Proof.
  induction n as [|n IH]; intros x.
  - right. intros f Hf. replace f with 0%nat by lia. intros z a z'. discriminate.
  - assert (D : forall y, nested pg m n y \/ ~ nested pg m n y).
    { clear. induction n as [|n IH]; intros y; [right; intros H; inversion H|].
      destruct (one_by_one _ IH (callees pg m y)) as [H|(w & H1 & H2)]; [left; constructor; exact H|].
      right. intros H. inversion H; subst. auto. }
    destruct (one_by_one _ D (callees pg m x)) as [H|(y & H1 & H2)]; [left; constructor; exact H|right].
    destruct (IH y) as [H3|H3]; [contradiction|]. intros [|f] Hf; [intros z a z'; discriminate|]. destruct x as [t a]. unfold at_. cbn [fst snd].
    apply (fails_data f t a y H1). apply H3. lia.
Qed.
Lemma ok_nested n t a z u z' : dx n t a z = Ok u z' -> nested pg m n (t, a).
Proof. intros H. destruct (nested_split n (t, a)) as [Hn|Hn]; [exact Hn|]. exfalso. exact (Hn n (le_n n) z u z' H). Qed.
Lemma endless_never S : goes_on pg m S -> forall x, S x -> forall f, fails (at_ (dx f) x).
Proof.
  intros HG x Hx f. revert x Hx. induction f as [|f IH]; intros [t a] Hx; [intros z u z'; discriminate|].
  destruct (HG _ Hx) as (y & Y1 & Y2). unfold at_. cbn [fst snd]. exact (fails_data f t a y Y1 (IH y Y2)).
Qed.

(** *** Many values *)
Lemma same_values n xs : Forall (nested pg m n) xs -> forall f, (n <= f)%nat -> same (g_dx_values R pg k m f xs) (g_dx_values R pg k m n xs).
Proof.
  intros H f Hf. induction H as [|[t a] xs H1 H2 IH]; cbn [g_dx_values]; [apply same_fine; intros; apply fine_ret|].
  apply same_bind; [apply same_svw; exact (nested_same n _ H1 f Hf)|intros p]. apply same_bind; [exact IH|intros ps; apply same_fine; intros; apply fine_ret].
Qed.
Lemma same_catch {A} (f g : M (gz St) A) : same f g -> same (g_catch f) (g_catch g).
Proof.
  intros H z. destruct (H z) as [H1 H2]. unfold g_catch. rewrite H1. split; [reflexivity|]. intros HR. specialize (H2 HR). destruct (g z); congruence.
Qed.
Lemma same_attempts n xs : Forall (nested pg m n) xs -> forall f, (n <= f)%nat -> same (g_dx_attempt_all R pg k m f xs) (g_dx_attempt_all R pg k m n xs).
Proof.
  intros H f Hf. induction H as [|[t a] xs H1 H2 IH]; cbn [g_dx_attempt_all]; [apply same_fine; intros; apply fine_ret|].
  apply same_bind; [apply same_fine; intros; apply fine_gets|intros b].
  apply same_bind; [apply same_catch, same_svw; exact (nested_same n _ H1 f Hf)|intros p]. apply same_bind; [exact IH|intros ps; apply same_fine; intros; apply fine_ret].
Qed.
Lemma attempts_nested f xs : forall z outs z', g_dx_attempt_all R pg k m f xs z = Ok outs z' ->
  Forall2 (fun x o => forall p, snd o = Some p -> nested pg m f x) xs outs.
Proof.
  induction xs as [|[t a] xs IH]; intros z outs z' H; cbn [g_dx_attempt_all] in H.
  - injection H as <- <-. constructor.
  - unfold bind at 1, gets in H. cbn beta in H. unfold bind at 1, g_catch in H.
    destruct (g_serialize_value_with _ _ _ _ z) as [p z1|e z1| | |] eqn:Ev; try discriminate; unfold bind at 1 in H;
      destruct (g_dx_attempt_all R pg k m f xs z1) as [outs1 z2|e2 z2| | |] eqn:Er; try discriminate; unfold ret in H; injection H as <- <-;
      (constructor; [|exact (IH _ _ _ Er)]); cbn [snd]; intros p0 Hp; [|discriminate].
    destruct (nested_split f (t, a)) as [Hn|Hn]; [exact Hn|]. exfalso. exact (fails_svw _ _ (Hn f (le_n f)) z p z1 Ev).
Qed.
End G.

(** ** How deep it can be told to be *)
Section Told.
Context {P : Params} {L : Lexer}.
Variable pg : program.
Variable m : mem.
Notation E := (pr_env pg).
Fixpoint nestedb (n : nat) (x : ty * N) : bool :=
  match n with O => false | S n' => forallb (nestedb n') (callees pg m x) end.
Lemma nestedb_iff : forall n x, nestedb n x = true <-> nested pg m n x.
Proof.
  induction n as [|n IH]; intros x; cbn [nestedb]; split; intros H; try discriminate; try (inversion H; fail).
  - constructor. intros y Hy. apply IH. rewrite forallb_forall in H. auto.
  - inversion H; subst. apply forallb_forall. intros y Hy. apply IH. auto.
Qed.
Lemma nested_more n x : nested pg m n x -> forall n', (n <= n')%nat -> nested pg m n' x.
Proof. intros H. induction H as [n x _ IH]. intros [|n'] Hn; [lia|]. constructor. intros y Hy. apply IH; [exact Hy|lia]. Qed.
Lemma endless_not_nested S : goes_on pg m S -> forall n x, S x -> ~ nested pg m n x.
Proof. intros HG n x Hx H. induction H as [n x _ IH]. destruct (HG x Hx) as (y & Y1 & Y2). exact (IH y Y1 Y2). Qed.

(** *** Valid values of programs that keep to the rules *)
Hypothesis C : cfg_ok.
Hypothesis LO : lexer_ok.
Hypothesis HE : wf_env E.
Hypothesis PO : program_ok pg.
Hypothesis DW : delegates_well pg m.
Notation H := any_header.
Notation valid3 t a v := (repr E H m t a v /\ wf_ty E t /\ a + size_of E t <= umod).
Lemma handed_valid d : forall size al a ss, steps_ok E m d size al a ss -> a + size <= umod ->
  forall y, In y (flat_map (handed a) ss) -> exists v, valid3 (fst y) (snd y) v /\ (vdepth v < d)%nat.
Proof.
  apply (steps_ok_mut P E m d
    (fun size al a s _ => a + size <= umod -> forall y, In y (handed a s) -> exists v, valid3 (fst y) (snd y) v /\ (vdepth v < d)%nat)
    (fun size al a ss _ => a + size <= umod -> forall y, In y (flat_map (handed a) ss) -> exists v, valid3 (fst y) (snd y) v /\ (vdepth v < d)%nat));
    try (intros; contradiction).
  - intros size al a off l tp n body H1 H2 H3 H4 H5 IH Ha y Hy. destruct H4 as (_ & _ & H4). exact (IH H4 y Hy).
  - intros size al a off t v H1 H2 H3 H4 H5 H6 Ha y [<-|[]]. exists v. cbn [fst snd]. ands; auto. lia.
  - intros size al a s ss H1 IH1 H2 H3 IH2 Ha y Hy. cbn [flat_map] in Hy. apply in_app_or in Hy. destruct Hy; auto.
Qed.
Lemma fields_valid fs vs a l n off t : repr_fields E H m fs a vs -> fields_ok E l fs -> (forall o t, In (o, t) fs -> wf_ty E t) -> a + l_size l <= umod ->
  nth_error fs n = Some (off, t) -> exists v, valid3 t (a + off) v /\ (vdepth v <= list_max (map vdepth vs))%nat.
Proof.
  intros R1 R2 R3 R4 R6. destruct (field_at pg m a fs vs R1 n off t R6) as (v0 & V1 & V2).
  pose proof (nth_error_In _ _ R6) as Hin. pose proof (fields_inside pg l fs R2 off t Hin). exists v0. ands; auto; [exact (R3 off t Hin)|lia].
Qed.
Lemma valid_nested : forall f t a v, valid3 t a v -> (vdepth v < f)%nat -> nested pg m f (t, a).
Proof.
  pose proof (pW_vals (c_machine C)) as HW.
  induction f as [|f IH]; intros t a v (Hr & Hw & Ha) Hf; [lia|].
  assert (Hel : forall t vs a, repr_elems E H m t a vs -> wf_ty E t -> a + size_of E t * N.of_nat (length vs) <= umod -> (list_max (map vdepth vs) < f)%nat ->
    forall y, In y (each_elem pg t (length vs) a) -> nested pg m f y).
  { clear - IH. intros t vs. induction vs as [|v vs IHn]; intros a Hr Hw Ha Hf y Hy; [contradiction|].
    inversion Hr; subst. cbn [length map list_max fold_right] in *. rewrite Nat2N.inj_succ in Ha. rewrite elems_S in Hy.
    change (fold_right Nat.max 0%nat (map vdepth vs)) with (list_max (map vdepth vs)) in Hf.
    destruct Hy as [<-|Hy]; [apply (IH t a v); [ands; auto; lia|lia]|]. eapply IHn; eauto; lia. }
  assert (Hfl : forall fs vs a l, repr_fields E H m fs a vs -> fields_ok E l fs -> (forall o t, In (o, t) fs -> wf_ty E t) -> a + l_size l <= umod ->
    (list_max (map vdepth vs) < f)%nat -> forall y, In y (each_field fs a) -> nested pg m f y).
  { intros fs vs a0 l R1 R2 R3 R4 R5 y Hy. unfold each_field in Hy. apply in_map_iff in Hy. destruct Hy as ([off t0] & <- & Hin). cbn [fst snd].
    destruct (In_nth_error _ _ Hin) as [n Hn]. destruct (fields_valid fs vs a0 l n off t0 R1 R2 R3 R4 Hn) as (v0 & V1 & V2).
    exact (IH t0 _ v0 V1 ltac:(lia)). }
  assert (Hst : forall d size al a s0, steps_ok E m d size al a s0 -> a + size <= umod -> (d <= f)%nat ->
    forall y, In y (flat_map (handed a) s0) -> nested pg m f y).
  { intros d size al a0 s0 Hs Hb Hd [t0 x0] Hy. destruct (handed_valid d size al a0 s0 Hs Hb _ Hy) as (v0 & V1 & V2). exact (IH t0 x0 v0 V1 ltac:(lia)). }
  assert (Hex : forall i v fs vs a l, repr_fields E H m fs a vs -> fields_ok E l fs -> (forall o t, In (o, t) fs -> wf_ty E t) -> a + l_size l <= umod ->
    (list_max (map vdepth vs) < f)%nat ->
    (forall ks, generated i v = Some ks -> forall c n off t, In (c, n) ks -> nth_error fs n = Some (off, t) ->
       match c with CSerialize => True | CWith w => proxied pg w t end) ->
    forall y, In y (each_statement pg m i v fs a) -> nested pg m f y).
  { intros i v1 fs vs a0 l R1 R2 R3 R4 R5 HX y Hy. unfold each_statement in Hy. destruct (generated i v1) as [ks|]; [|contradiction].
    apply in_flat_map in Hy. destruct Hy as ([c n] & N1 & N2). cbn [fst snd] in N2. destruct (nth_error fs n) as [[off t0]|] eqn:En; [|contradiction].
    destruct (fields_valid fs vs a0 l n off t0 R1 R2 R3 R4 En) as (v0 & V1 & V2).
    specialize (HX ks eq_refl c n off t0 N1 En). destruct c as [|w]; cbn [through] in N2.
    - destruct N2 as [<-|[]]. exact (IH t0 _ v0 V1 ltac:(lia)).
    - destruct DW as [_ D2]. destruct V1 as (V11 & V12 & V13). exact (Hst _ _ _ _ _ (D2 w t0 HX (a0 + off) v0 V11 V13) V13 ltac:(lia) y N2). }
  constructor. intros y Hy. cbn [callees] in Hy.
  inversion Hr as [l ok a0 n R1 R2|t0 a0 p v0 R1 R2 R3 R4|vl t0 a0 c p vs R1 R2 R3 R4 R5 R6|vl a0 c p bs R1 R2 R3 R4 R5 R6|t0 n a0 vs R1 R2|l fs a0 vs R1|l d vss a0 j fs vs R1 R2 R3 R4|id d a0 v0 R1 R2]; subst; cbn [vdepth] in Hf.
  - contradiction.
  - inversion Hw as [|t' Ht HP| | | | | |]; subst. destruct R2 as (Hp0 & Hpa & Hpe). fold (size_of E t0) in Hpe.
    destruct (size_of E t0 =? 0); [contradiction|]. rewrite R1 in Hy. destruct Hy as [<-|[]]. apply (IH t0 p v0); [ands; auto; lia|lia].
  - inversion Hw as [| |vl' t' Ht HP| | | | |]; subst. destruct R4 as ((Hp0 & Hpa & Hpe) & _). fold (size_of E t0) in *.
    destruct (size_of E t0 =? 0) eqn:Z; [contradiction|]. rewrite R3, R2, Nat2N.id in Hy. eapply (Hel t0 vs p); eauto; lia.
  - contradiction.
  - inversion Hw as [| | | |t' n' Ht HP| | |]; subst. change (size_of E (TArray t0 (N.of_nat (length vs)))) with (size_of E t0 * N.of_nat (length vs)) in Ha.
    rewrite Nat2N.id in Hy. eapply (Hel t0 vs a); eauto; lia.
  - inversion Hw as [| | | | |l' fs' Hg Hf' Hin| |]; subst. eapply (Hfl fs vs a l); eauto; lia.
  - inversion Hw as [| | | | | |l' d' vss' Hg Hd' Hf' Hin|]; subst. unfold each_of_variant in Hy. rewrite R1, R2 in Hy.
    exact (Hfl fs vs a l R3 (Hf' _ _ R2) (fun o t0 => Hin j fs o t0 R2) Ha ltac:(lia) y Hy).
  - assert (HL : layout_of E (TNamed id) = layout_of E d) by (apply (named_size E HE); exact R1).
    destruct (HE id d R1) as [Wd Wk]. pose proof Ha as Ha'. unfold size_of in Ha. rewrite HL in Ha. fold (size_of E d) in Ha.
    pose proof (PO id d R1) as Pk. rewrite R1 in Hy. destruct (impl_for pg id) as [i|h|] eqn:EI; [| |contradiction].
    + inversion Wd as [| | | | |l fs Hg Hf' Hin|l dd vss Hg Hd' Hf' Hin|]; subst; try contradiction.
      * destruct (derived_callees pg LO PO id i _ _ R1 EI) as (dfs & cs & ks & D1 & D2 & D3 & D4 & D5 & D6 & D7).
        inversion R2 as [| | | | |l1 fs1 a1 vs R0| |]; subst. cbn [vdepth] in Hf. refine (Hex i None fs vs a l R0 Hf' Hin Ha ltac:(lia) _ y Hy).
        intros ks' G c n off t0 N1 N2. rewrite D3 in G. injection G as <-. destruct c as [|w]; [exact Logic.I|].
        destruct (seq_nth ks 0 (length fs) D5 _ _ N1) as [Q _]. rewrite Nat.sub_0_r in Q. exact (D7 n w off t0 Q N2).
      * inversion R2 as [| | | | | |l1 d1 vss1 a1 j fs vs Q1 Q2 Q3 Q4|]; subst. cbn [vdepth] in Hf. unfold each_of_variant in Hy. rewrite Q1, Q2 in Hy.
        inversion Pk as [|l' dd' vss' vvs im Hd Hl Hn Hg']; subst.
        refine (Hex i (Some j) fs vs a l Q3 (Hf' _ _ Q2) (fun o t0 => Hin j fs o t0 Q2) Ha ltac:(lia) _ y Hy).
        intros ks G c n off t0 N1 N2.
        assert (Hx : exists vv, nth_error vvs j = Some vv /\ length (field_list (v_fields vv)) = length fs).
        { clear - Hn Q2. revert j Q2. induction Hn as [|x y l1 l2 Hxy Hr IHn]; intros [|j] Nj; cbn in *; try discriminate.
          - injection Nj as ->. eauto.
          - eauto. }
        destruct Hx as (vv & Hv1 & Hv2). rewrite (enum_generated LO i vvs im j vv Hd Hl Hg' Hv1) in G. injection G as <-.
        apply in_map_iff in N1. destruct N1 as (x & Hx & _). injection Hx as <- _. exact Logic.I.
    + destruct DW as [DW1 _]. exact (Hst _ _ _ _ _ (DW1 id h EI a v Hr Ha') Ha' ltac:(cbn; lia) y Hy).
Qed.
End Told.
