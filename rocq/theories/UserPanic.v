(** * UserPanic: the code of this repository never raises a panic of the client's kind:
    such a panic comes from the client's own code. *)
From Verif Require Import Base Types Storage Serializer Serialize.
Local Open Scope N_scope.

Section UserPanic.
Context {P : Params}.

Definition nouser {S A} (f : M S A) : Prop :=
  forall s, match f s with Panic PUser _ => False | _ => True end.

Lemma nu_ret {S A} (x : A) : nouser (@ret S A x).
Proof. intros s. exact I. Qed.
Lemma nu_bind {S A B} (f : M S A) (g : A -> M S B) : nouser f -> (forall x, nouser (g x)) -> nouser (bind f g).
Proof.
  intros Hf Hg s. unfold bind. specialize (Hf s). destruct (f s) as [x s'|p s'| | |]; auto. apply Hg.
Qed.
Lemma nu_panics {S A} p : p <> PUser -> nouser (@panics S A p).
Proof. intros Hp s. cbn. destruct p; auto. Qed.
Lemma nu_ub {S A} : nouser (@ub S A).
Proof. intros s. exact I. Qed.
Lemma nu_gets {S A} (f : S -> A) : nouser (gets f).
Proof. intros s. exact I. Qed.
Lemma nu_modify {S} (f : S -> S) : nouser (modify f).
Proof. intros s. exact I. Qed.
Lemma nu_lift {A} (f : M sw A) : nouser f -> nouser (lift f).
Proof. intros Hf z. unfold lift. specialize (Hf (z_sw z)). destruct (f (z_sw z)); auto. Qed.

Ltac nu := repeat first
  [ apply nu_ret | apply nu_ub | apply nu_gets | apply nu_modify | apply nu_panics; discriminate
  | apply nu_bind; [|intros ?] | apply nu_lift | assumption
  | match goal with
    | |- nouser (if ?b then _ else _) => destruct b
    | |- nouser (match ?x with _ => _ end) => destruct x
    end
  | match goal with |- nouser ?f => let h := (match f with ?g _ _ _ _ _ => g | ?g _ _ _ _ => g | ?g _ _ _ => g | ?g _ _ => g | ?g _ => g | _ => f end) in unfold h end ].

Lemma nu_add {S} a b : nouser (@add_u P S a b). Proof. nu. Qed.
Lemma nu_sub {S} a b : nouser (@sub_u P S a b). Proof. nu. Qed.
Lemma nu_mul {S} a b : nouser (@mul_u P S a b). Proof. nu. Qed.
Lemma nu_dassert {S} (c : M S bool) : nouser c -> nouser (dassert c).
Proof. intros H. unfold dassert. nu. Qed.
Lemma nu_assert {S} p c : p <> PUser -> nouser (@assert_or S p c).
Proof. intros H. unfold assert_or. destruct c; [apply nu_ret|apply nu_panics; exact H]. Qed.

Ltac nux tac := repeat first
  [ tac | apply nu_ret | apply nu_ub | apply nu_gets | apply nu_modify | apply nu_panics; discriminate
  | apply nu_add | apply nu_sub | apply nu_mul | apply nu_dassert | apply nu_assert; discriminate
  | match goal with |- nouser (bind _ _) => apply nu_bind; [|intros ?] end | apply nu_lift | assumption
  | match goal with
    | |- nouser (if ?b then _ else _) => destruct b
    | |- nouser (match ?x with _ => _ end) => destruct x
    end ].

Ltac nu2 := nux fail.

Lemma nu_npot {S} a : nouser (@next_power_of_two P S a). Proof. unfold next_power_of_two. nu2. Qed.
Lemma nu_align_up {S} a b : nouser (@align_up_to P S a b). Proof. unfold align_up_to. nu2. Qed.
Lemma nu_is_aligned {S} a b : nouser (@is_aligned_to P S a b). Proof. unfold is_aligned_to. nu2. Qed.
Lemma nu_max_cap {S} a : nouser (@aligned_max_capacity P S a). Proof. unfold aligned_max_capacity. nu2. Qed.
Lemma nu_alloc c : nouser (alloc c).
Proof.
  unfold alloc. apply nu_bind; [apply nu_dassert, nu_ret|intros _].
  apply nu_bind; [apply nu_dassert, nu_bind; [apply nu_max_cap|intros; apply nu_ret]|intros _].
  intros w. destruct (_ && _); [|exact I]. cbn zeta. destruct (_ =? 0); exact I.
Qed.
Lemma nu_realloc c : nouser (realloc c).
Proof.
  unfold realloc. apply nu_bind; [apply nu_gets|intros cap].
  apply nu_bind; [apply nu_dassert, nu_ret|intros _]. apply nu_bind; [apply nu_dassert, nu_ret|intros _].
  apply nu_bind; [apply nu_dassert, nu_bind; [apply nu_max_cap|intros; apply nu_ret]|intros _].
  intros w. cbn zeta. destruct (_ && _); [|exact I]. destruct (_ =? 0); exact I.
Qed.
Lemma nu_write_slice p l n d : nouser (write_slice p l n d).
Proof.
  unfold write_slice. apply nu_bind; [apply nu_gets|intros cap].
  apply nu_bind; [apply nu_dassert, nu_ret|intros _]. apply nu_bind; [apply nu_dassert; nu2|intros _].
  apply nu_bind; [apply nu_dassert, nu_is_aligned|intros _].
  destruct (_ =? 0); [apply nu_ret|]. intros w. cbn zeta. destruct (_ && _); exact I.
Qed.
Lemma nu_grow n : nouser (grow_for_reserve n).
Proof. unfold grow_for_reserve, get_pos, get_cap, put_ptr, put_cap. cbn zeta. nux ltac:(first [apply nu_npot|apply nu_alloc|apply nu_realloc]). Qed.
Lemma nu_reserve n : nouser (reserve n).
Proof. unfold reserve, get_pos, get_cap. nux ltac:(apply nu_grow). Qed.
Lemma nu_align a : nouser (align a).
Proof. unfold align, set_pos, get_pos, get_cap, put_pos. nux ltac:(first [apply nu_align_up|apply nu_is_aligned]). Qed.
Lemma nu_push_slice l n d : nouser (push_slice l n d).
Proof.
  unfold push_slice, push_slice_unchecked, align_for, align_after, align_after_any, get_pos, get_cap, put_pos. nux ltac:(first [apply nu_align|apply nu_reserve|apply nu_is_aligned|apply nu_write_slice]).
Qed.

Lemma nu_overwrite_ptr k q t : nouser (overwrite_ptr k q t).
Proof.
  unfold overwrite_ptr, po_overwrite_ptr, co_overwrite_ptr, ser_capacity, as_ptr, get_cap, get_ptr, get_ptrs, set_ptrs, write.
  nux ltac:(first [apply nu_is_aligned|apply nu_write_slice]).
Qed.
Lemma nu_pos_for pm a : nouser (@pos_for_addr P zs pm a).
Proof. unfold pos_for_addr, addr_n. nu2. Qed.
Lemma nu_overwrite k a l d : nouser (overwrite k a l d).
Proof.
  unfold overwrite, do_overwrite, get_map, write. nux ltac:(first [apply nu_pos_for|apply nu_write_slice]).
Qed.
Lemma nu_addr k a : nouser (@addr_from_ref zs k a). Proof. unfold addr_from_ref. nu2. Qed.
Lemma nu_addr_off k a o : nouser (@addr_from_ref_offset P zs k a o). Proof. unfold addr_from_ref_offset. nu2. Qed.
Lemma nu_load m a : nouser (@load_word P zs m a). Proof. unfold load_word. nu2. Qed.
Lemma nu_const {A} (o : option A) : nouser (@const_or zs A o). Proof. unfold const_or. nu2. Qed.
Lemma nu_ow k f : nouser f -> nouser (overwrite_with k f). Proof. intros H. unfold overwrite_with. nu2. Qed.

Lemma nu_paps k s a f : nouser f -> nouser (push_and_process_slice k s a f).
Proof.
  intros H. unfold push_and_process_slice, dflt_push_and_process_slice, pt_push_and_process_slice, pw_push_and_process_slice,
    push_raw_slice, get_map, set_map.
  nux ltac:(first [apply nu_push_slice|apply nu_pos_for|apply nu_overwrite_ptr]).
Qed.
Lemma nu_ser_push_slice k s a : nouser (ser_push_slice k s a).
Proof.
  unfold ser_push_slice, pt_push_slice, pw_push_slice, push_raw_slice, get_map.
  nux ltac:(first [apply nu_push_slice|apply nu_pos_for|apply nu_overwrite_ptr|apply nu_paps; apply nu_ret]).
Qed.
Lemma nu_serialize_value_with k s f : nouser f -> nouser (serialize_value_with k s f).
Proof.
  intros H. unfold serialize_value_with, push_raw, push_raw_slice, set_map. nux ltac:(apply nu_push_slice).
Qed.
Lemma nu_for_elems n f : forall a sz, (forall x, nouser (f x)) -> nouser (for_elems n a sz f).
Proof. induction n as [|n IH]; intros a sz H; cbn [for_elems]; [apply nu_ret|apply nu_bind; auto]. Qed.
Lemma nu_for_fields fs f : forall a, (forall t x, nouser (f t x)) -> nouser (for_fields fs a f).
Proof.
  induction fs as [|[off t] fs IH]; intros a H; cbn [for_fields]; [apply nu_ret|apply nu_bind; auto].
Qed.
Lemma nu_overwrite_empty k vo d a : nouser (overwrite_empty k vo d a).
Proof. unfold overwrite_empty. cbn zeta. nux ltac:(first [apply nu_addr|apply nu_addr_off|apply nu_overwrite]). Qed.

Ltac nu3 := nux ltac:(idtac; match goal with
  | |- nouser (overwrite_with _ _) => apply nu_ow
  | |- nouser (load_word _ _) => apply nu_load
  | |- nouser (addr_from_ref _ _) => apply nu_addr
  | |- nouser (addr_from_ref_offset _ _ _) => apply nu_addr_off
  | |- nouser (const_or _) => apply nu_const
  | |- nouser (overwrite _ _ _ _) => apply nu_overwrite
  | |- nouser (overwrite_empty _ _ _ _) => apply nu_overwrite_empty
  | |- nouser (push_and_process_slice _ _ _ _) => apply nu_paps
  | |- nouser (for_elems _ _ _ _) => apply nu_for_elems; intros
  | |- nouser (ser_push_slice _ _ _) => apply nu_ser_push_slice
  end).

Lemma nu_ser_data k E m : forall fuel t a, nouser (ser_data k E m fuel t a).
Proof.
  induction fuel as [|fuel IH]; intros t a; [intros z; exact I|]. cbn [ser_data].
  destruct (resolve E t); unfold ser_box, ser_vec, ser_string, push_and_process; nu3; auto.
  all: try (apply nu_for_elems; intros; apply IH).
  all: apply nu_for_fields; intros; apply IH.
Qed.

Lemma nu_serialize_value k E m fuel t a : nouser (serialize_value k E m fuel t a).
Proof. apply nu_serialize_value_with, nu_ser_data. Qed.

Lemma nu_serialize_values k E m fuel : forall vs, nouser (serialize_values k E m fuel vs).
Proof.
  induction vs as [|[t a] vs IH]; cbn [serialize_values]; [apply nu_ret|].
  apply nu_bind; [apply nu_serialize_value|intros p]. apply nu_bind; [exact IH|intros; apply nu_ret].
Qed.

End UserPanic.
