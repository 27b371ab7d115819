(** * GenRecord: the record of pointers kept by a serializer, whatever the implementations do (used by PropGenRecord, C97). *)
From Coq Require Import Arith.
From Verif Require Import Base Types Storage Serializer Serialize Client Spec ClientSpec GenStorage GenSerializer GenClient.
From Coq Require Import ZifyBool ZifyNat ZifyN.
Local Open Scope N_scope.

Section GenRecord.
Context {P : Params}.
Context {St : Type}.
Variable R : ra_impl St.
Variable k : kind.

(** No group put aside is empty; a serializer that is not Complete records nothing. *)
Definition rec_ok (z : gz St) : Prop :=
  match k with
  | Complete => Forall (fun g => pg_pos g <> []) (pt_past (gz_ptrs z))
  | _ => gz_ptrs z = ptrs_new
  end.
Definition tidy {A} (f : M (gz St) A) : Prop :=
  forall z, rec_ok z -> match f z with Ok _ z' | Panic _ z' => rec_ok z' | _ => True end.

Lemma ti_ret {A} (x : A) : tidy (ret x). Proof. intros z H. exact H. Qed.
Lemma ti_bind {A B} (f : M (gz St) A) (g : A -> M (gz St) B) : tidy f -> (forall x, tidy (g x)) -> tidy (bind f g).
Proof. intros Hf Hg z H. unfold bind. specialize (Hf z H). destruct (f z) as [x z'|p z'| | |]; auto. apply Hg. exact Hf. Qed.
Lemma ti_panics {A} p : tidy (@panics (gz St) A p). Proof. intros z H. exact H. Qed.
Lemma ti_ub {A} : tidy (@ub (gz St) A). Proof. intros z H. exact Logic.I. Qed.
Lemma ti_gets {A} (f : gz St -> A) : tidy (gets f). Proof. intros z H. exact H. Qed.
Lemma ti_lift {A} (f : M St A) : tidy (glift f).
Proof. intros z H. unfold glift. destruct (f (gz_st z)); auto. Qed.
Lemma ti_set_map pm : tidy (g_set_map pm). Proof. intros z H. exact H. Qed.

Ltac tix tac := repeat first
  [ tac | apply ti_ret | apply ti_ub | apply ti_gets | apply ti_panics | apply ti_lift | apply ti_set_map
  | match goal with |- tidy (bind _ _) => apply ti_bind; [|intros ?] end | assumption
  | match goal with
    | |- tidy (if ?b then _ else _) => destruct b
    | |- tidy (match ?x with _ => _ end) => destruct x
    end ].
Ltac ti := tix fail.

Lemma ti_add a b : tidy (add_u a b). Proof. unfold add_u. ti. Qed.
Lemma ti_sub a b : tidy (sub_u a b). Proof. unfold sub_u. ti. Qed.
Lemma ti_dassert (c : M (gz St) bool) : tidy c -> tidy (dassert c). Proof. intros H. unfold dassert. ti. Qed.
Lemma ti_is_aligned a b : tidy (is_aligned_to a b).
Proof. unfold is_aligned_to. tix ltac:(first [apply ti_dassert|apply ti_sub]). Qed.
Lemma ti_pos_for pm a : tidy (pos_for_addr pm a).
Proof. unfold pos_for_addr, addr_n. tix ltac:(first [apply ti_sub|apply ti_add]). Qed.
Lemma ti_addr a : tidy (addr_from_ref k a). Proof. unfold addr_from_ref. ti. Qed.
Lemma ti_addr_off a o : tidy (addr_from_ref_offset k a o). Proof. unfold addr_from_ref_offset. tix ltac:(apply ti_add). Qed.
Lemma ti_load m a : tidy (load_word m a). Proof. unfold load_word. ti. Qed.
Lemma ti_const {A} (o : option A) : tidy (const_or o). Proof. unfold const_or. ti. Qed.

Lemma ti_overwrite_ptr q t : tidy (g_overwrite_ptr R k q t).
Proof.
  assert (HC : tidy (g_capacity R)) by apply ti_gets.
  unfold g_overwrite_ptr. destruct k eqn:Ek; try apply ti_ub.
  - unfold g_po_overwrite_ptr. tix ltac:(first [apply ti_dassert|apply ti_is_aligned|apply ti_sub]).
  - unfold g_co_overwrite_ptr. do 3 (apply ti_bind; [tix ltac:(first [apply ti_dassert|apply ti_is_aligned|apply ti_sub])|intros _]).
    apply ti_bind; [apply ti_gets|intros sa]. apply ti_bind; [apply ti_add|intros ta]. apply ti_bind; [apply ti_lift|intros _].
    intros z H. unfold bind, g_get_ptrs, gets, g_set_ptrs, modify. unfold rec_ok in *. rewrite Ek in *. cbn [gz_ptrs pt_past].
    destruct (negb _); [|exact H]. unfold new_ptr_group. destruct (gz_ptrs z) as [cur past]. cbn [pt_current pt_past] in *.
    unfold group_is_empty. destruct (pg_pos cur) eqn:Eg; cbn [negb pt_past]; [exact H|]. apply Forall_app. split; [exact H|]. constructor; [|constructor]. rewrite Eg. discriminate.
Qed.
Lemma ti_pps s a f : tidy f -> tidy (g_push_and_process_slice R k s a f).
Proof.
  intros H. pose proof ti_overwrite_ptr as HO. unfold g_push_and_process_slice, g_push_raw_slice, g_get_map. destruct k eqn:Ek; tix ltac:(first [apply ti_pos_for|apply HO]).
Qed.
Lemma ti_push s a : tidy (g_ser_push_slice R k s a).
Proof.
  pose proof (ti_pps s a (ret tt) (ti_ret tt)) as HP. pose proof ti_overwrite_ptr as HO.
  unfold g_ser_push_slice, g_pw_push_slice, g_push_raw_slice, g_get_map in *. destruct k eqn:Ek; tix ltac:(first [exact HP|apply ti_pos_for|apply HO]).
Qed.
Lemma ti_overwrite a l d : tidy (g_overwrite R k a l d).
Proof. unfold g_overwrite, g_do_overwrite, g_get_map. destruct k; tix ltac:(apply ti_pos_for). Qed.
Lemma ti_ow f : tidy f -> tidy (g_overwrite_with k f). Proof. intros H. unfold g_overwrite_with. destruct k; ti. Qed.
Lemma ti_svw s f : tidy f -> tidy (g_serialize_value_with R k s f).
Proof. intros H. unfold g_serialize_value_with, g_push_raw_slice. destruct k eqn:Ek; ti. Qed.
Lemma ti_elems n f : forall a sz, (forall x, tidy (f x)) -> tidy (g_for_elems n a sz f).
Proof. induction n as [|n IH]; intros a sz H; cbn [g_for_elems]; [apply ti_ret|apply ti_bind; auto]. Qed.
Lemma ti_fields fs f : forall a, (forall t x, tidy (f t x)) -> tidy (g_for_fields fs a f).
Proof. induction fs as [|[off t] fs IH]; intros a H; cbn [g_for_fields]; [apply ti_ret|apply ti_bind; auto]. Qed.
Lemma ti_empty vo d a : tidy (g_overwrite_empty R k vo d a).
Proof. unfold g_overwrite_empty. cbn zeta. tix ltac:(first [apply ti_addr|apply ti_addr_off|apply ti_overwrite]). Qed.
Ltac ti3 := tix ltac:(idtac; match goal with
  | |- tidy (g_overwrite_with _ _) => apply ti_ow
  | |- tidy (load_word _ _) => apply ti_load
  | |- tidy (addr_from_ref _ _) => apply ti_addr
  | |- tidy (addr_from_ref_offset _ _ _) => apply ti_addr_off
  | |- tidy (const_or _) => apply ti_const
  | |- tidy (g_overwrite _ _ _ _ _) => apply ti_overwrite
  | |- tidy (g_overwrite_empty _ _ _ _ _) => apply ti_empty
  | |- tidy (g_push_and_process_slice _ _ _ _ _) => apply ti_pps
  | |- tidy (g_for_elems _ _ _ _) => apply ti_elems; intros
  | |- tidy (g_for_fields _ _ _) => apply ti_fields; intros
  | |- tidy (g_ser_push_slice _ _ _ _) => apply ti_push
  end).
Lemma ti_ser_data E m : forall fuel t a, tidy (g_ser_data R k E m fuel t a).
Proof.
  induction fuel as [|fuel IH]; intros t a; [intros z _; exact Logic.I|]. cbn [g_ser_data].
  destruct (resolve E t); unfold g_ser_box, g_ser_vec, g_ser_string; ti3; apply IH.
Qed.
Lemma ti_run E m fuel : forall s a, tidy (g_run_step R k E m fuel a s).
Proof.
  fix IH 1. intros s a. destruct s as [off l tp n body|off l tp n|l tp n|off l data|off t v|o|]; cbn [g_run_step].
  - apply ti_bind; [apply ti_addr_off|intros ad]. apply ti_bind; [|intros _; apply ti_ret]. apply ti_pps.
    induction body as [|s ss IHs]; [apply ti_ret|]. apply ti_bind; [apply IH|intros _; exact IHs].
  - ti3.
  - apply ti_bind; [apply ti_lift|intros _; apply ti_ret].
  - ti3.
  - apply ti_ser_data.
  - intros z H. unfold g_store_call. destruct (g_run_op (r_st R) o (gz_st z)); auto.
  - apply ti_panics.
Qed.
Lemma ti_runs E m fuel : forall ss a, tidy (g_run_steps R k E m fuel a ss).
Proof. induction ss as [|s ss IH]; intros a; cbn [g_run_steps]; [apply ti_ret|]. apply ti_bind; [apply ti_run|intros _; apply IH]. Qed.
Lemma ti_attempts E m fuel : forall rs, tidy (g_attempt_all R k E m fuel rs).
Proof.
  induction rs as [|[[l a] ss] rs IH]; [apply ti_ret|]. cbn [g_attempt_all]. apply ti_bind; [apply ti_gets|intros b].
  apply ti_bind; [|intros r; apply ti_bind; [exact IH|intros; apply ti_ret]].
  intros z H. unfold g_catch. pose proof (ti_svw (slice_at m l a 1) _ (ti_runs E m fuel ss a) z H) as HH.
  destruct (g_serialize_value_with R k (slice_at m l a 1) (g_run_steps R k E m fuel a ss) z); auto.
Qed.
End GenRecord.
