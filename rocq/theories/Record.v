(** * Record: what the pointer record of a serializer holds (C76). *)
From Coq Require Import Arith Lia.
From Verif Require Import Base Types Spec Storage Serializer Serialize SerProps ArithFacts TypeFacts SerFacts SerMain SerValue SerRoot.
Local Open Scope N_scope.

Section R.
Context {P : Params}.

(** Positions remembered for later correction, in the order in which they are kept. *)
Definition remembered (p : ptrs) : list N :=
  flat_map pg_pos (pt_past p) ++ pg_pos (pt_current p).

(** ** Storages: the buffer moves only when the allocator is called. *)
Definition moves_by_calls (w w' : sw) : Prop :=
  (sw_calls w <= sw_calls w')%nat /\ (sw_calls w = sw_calls w' -> s_ptr (sw_s w') = s_ptr (sw_s w)).
Definition keeps {A} (f : M sw A) : Prop := forall w a w', f w = Ok a w' -> moves_by_calls w w'.
Definition pure {A} (f : M sw A) : Prop := forall w a w', f w = Ok a w' -> w' = w.
Definition calls_once {A} (f : M sw A) : Prop := forall w a w', f w = Ok a w' -> (sw_calls w < sw_calls w')%nat.
Definition no_call {A} (f : M sw A) : Prop := forall w a w', f w = Ok a w' -> sw_calls w' = sw_calls w.

Lemma keeps_bind {A B} (f : M sw A) (g : A -> M sw B) : keeps f -> (forall a, keeps (g a)) -> keeps (bind f g).
Proof.
  intros Hf Hg w b w' H. unfold bind in H. destruct (f w) as [a w1| | | |] eqn:E; try discriminate.
  destruct (Hf _ _ _ E) as [F1 F2]. destruct (Hg _ _ _ _ H) as [G1 G2]. split; [lia|]. intros. rewrite G2, F2; auto; lia.
Qed.
Lemma keeps_pure {A} (f : M sw A) : pure f -> keeps f.
Proof. intros H w a w' E. rewrite (H _ _ _ E). split; auto. Qed.
Lemma pure_bind {S A B} (f : M S A) (g : A -> M S B) :
  (forall w a w', f w = Ok a w' -> w' = w) -> (forall a w b w', g a w = Ok b w' -> w' = w) -> forall w b w', bind f g w = Ok b w' -> w' = w.
Proof. intros Hf Hg w b w' H. unfold bind in H. destruct (f w) as [a w1| | | |] eqn:E; try discriminate. rewrite (Hg _ _ _ _ H). eapply Hf; eauto. Qed.
Lemma keeps_call {A B} (f : M sw A) (g : A -> M sw B) : calls_once f -> (forall a, no_call (g a)) -> keeps (bind f g).
Proof.
  intros Hf Hg w b w' H. unfold bind in H. destruct (f w) as [a w1| | | |] eqn:E; try discriminate.
  pose proof (Hf _ _ _ E). pose proof (Hg _ _ _ _ H). split; lia.
Qed.

Ltac un := intros ? ? ? ?; cbv [ret panics ub gets modify add_u sub_u mul_u assert_or next_power_of_two get_ptr get_cap get_pos as_ptr get_map get_ptrs
  const_or load_word addr_from_ref addr_from_ref_offset addr_n put_pos put_cap put_ptr put_buf with_store] in *;
  repeat match goal with H : context [if ?b then _ else _] |- _ => destruct b end; try discriminate;
  match goal with H : Ok _ _ = Ok _ _ |- _ => inversion H; subst end; try reflexivity.
Ltac pu := repeat first [apply pure_bind; [|intros ?]]; try solve [un].

Lemma pure_dassert {S} (c : M S bool) : (forall w a w', c w = Ok a w' -> w' = w) -> forall w a w', dassert c w = Ok a w' -> w' = w.
Proof. intros H. unfold dassert. destruct dbg; [|un]. apply pure_bind; [exact H|]. intros []; un. Qed.
Lemma pure_is_aligned {S} p a : forall (w : S) b w', is_aligned_to p a w = Ok b w' -> w' = w.
Proof. unfold is_aligned_to. pu. apply pure_dassert. un. Qed.
Lemma pure_align_up {S} p a : forall (w : S) b w', align_up_to p a w = Ok b w' -> w' = w.
Proof. unfold align_up_to. pu. all: try (apply pure_dassert; pu). Qed.

Lemma calls_alloc c : calls_once (alloc c).
Proof.
  intros w x w' H. unfold alloc in H. unfold bind in H.
  destruct (dassert _ w) as [u w1| | | |] eqn:E1; try discriminate. apply pure_dassert in E1; [|un]. subst w1.
  destruct (dassert _ w) as [u' w1| | | |] eqn:E1; try discriminate.
  apply pure_dassert in E1; [|apply pure_bind; [unfold aligned_max_capacity; pu|intros ?; un]]. subst w1.
  destruct (_ && _); [|discriminate]. destruct (_ =? 0); [discriminate|]. inversion H; subst. cbn. lia.
Qed.
Lemma calls_realloc c : calls_once (realloc c).
Proof.
  intros w x w' H. unfold realloc in H. unfold bind in H. cbn [get_cap gets] in H.
  destruct (dassert _ w) as [u w1| | | |] eqn:E1; try discriminate. apply pure_dassert in E1; [|un]. subst w1.
  destruct (dassert _ w) as [u0 w1| | | |] eqn:E1; try discriminate. apply pure_dassert in E1; [|un]. subst w1.
  destruct (dassert _ w) as [u' w1| | | |] eqn:E1; try discriminate.
  apply pure_dassert in E1; [|apply pure_bind; [unfold aligned_max_capacity; pu|intros ?; un]]. subst w1.
  destruct (_ && _); [|discriminate]. destruct (_ =? 0); [discriminate|]. inversion H; subst. cbn. lia.
Qed.

Ltac ke := repeat first
  [ apply keeps_call; [first [apply calls_alloc|apply calls_realloc]|intros ? ? ? ? H; cbn in H; inversion H; reflexivity]
  | apply keeps_bind; [|intros ?]
  | match goal with |- keeps (if ?b then _ else _) => destruct b end
  | apply keeps_pure; unfold pure; solve [un | apply pure_dassert; first [apply pure_is_aligned|apply pure_bind; [un|intros ?; apply pure_is_aligned]|pu] | apply pure_align_up]
  | solve [un; split; cbn; auto] ].

Lemma keeps_set_pos n : keeps (set_pos n).
Proof. unfold set_pos. ke. Qed.
Lemma keeps_write_slice p l n d : keeps (write_slice p l n d).
Proof. unfold write_slice. ke. Qed.
Lemma keeps_push_slice_unchecked l n d s : keeps (push_slice_unchecked l n d s).
Proof. unfold push_slice_unchecked. ke. Qed.
Lemma keeps_reserve n : keeps (reserve n).
Proof. unfold reserve, grow_for_reserve. ke. Qed.
Lemma keeps_align n : keeps (align n).
Proof. unfold align. ke. Qed.
Lemma keeps_push_slice l n d : keeps (push_slice l n d).
Proof.
  unfold push_slice, align_for, align_after, align_after_any.
  repeat first [apply keeps_align|apply keeps_reserve|apply keeps_push_slice_unchecked|apply keeps_bind; [|intros ?]
    |match goal with |- keeps (if ?b then _ else _) => destruct b end|solve [un; split; cbn; auto]].
Qed.


(** ** Serializers *)
Variable k : kind.

(** Groups of positions that exist, or have to be made at the next pointer. *)
Definition groups (z : zs) : nat :=
  Nat.add (length (pt_past (z_ptrs z)))
   (if negb (group_is_empty (pt_current (z_ptrs z))) && negb (pg_addr (pt_current (z_ptrs z)) =? s_ptr (sw_s (z_sw z))) then 1%nat else 0%nat).
Definition total (z : zs) : nat := length (remembered (z_ptrs z)).

(** [n] more positions are remembered, and no more groups made than the allocator was called. *)
Definition adds (n : nat) (z z' : zs) : Prop :=
  match k with
  | Complete => total z' = (total z + n)%nat /\ (groups z' + sw_calls (z_sw z) <= groups z + sw_calls (z_sw z'))%nat
  | _ => z_ptrs z' = z_ptrs z
  end.
Definition does {A} (n : nat) (f : M zs A) : Prop := forall z a z', f z = Ok a z' -> adds n z z'.

Lemma adds_trans n1 n2 z1 z2 z3 : adds n1 z1 z2 -> adds n2 z2 z3 -> adds (n1 + n2) z1 z3.
Proof. unfold adds. destruct k; try (intros -> ->; reflexivity) || (intros H1 H2; congruence). intros [H1 H2] [H3 H4]. lia. Qed.
Lemma adds_refl z : adds 0 z z.
Proof. unfold adds. destruct k; try reflexivity. lia. Qed.
Lemma does_bind {A B} n1 n2 (f : M zs A) (g : A -> M zs B) : does n1 f -> (forall a, does n2 (g a)) -> does (n1 + n2) (bind f g).
Proof.
  intros Hf Hg z b z' H. unfold bind in H. destruct (f z) as [a z1| | | |] eqn:E; try discriminate.
  eapply adds_trans; [eapply Hf; eauto|eapply Hg; eauto].
Qed.
Lemma does_bind0 {A B} n (f : M zs A) (g : A -> M zs B) : does 0 f -> (forall a, does n (g a)) -> does n (bind f g).
Proof. apply (does_bind 0 n). Qed.
Lemma does_bind1 {A B} n (f : M zs A) (g : A -> M zs B) : does n f -> (forall a, does 0 (g a)) -> does n (bind f g).
Proof. rewrite <- (Nat.add_0_r n) at 2. apply (does_bind n 0). Qed.
Lemma does_pure {A} (f : M zs A) : (forall z a z', f z = Ok a z' -> z' = z) -> does 0 f.
Proof. intros H z a z' E. rewrite (H _ _ _ E). apply adds_refl. Qed.
Lemma does_lift {A} (f : M sw A) : keeps f -> does 0 (lift f).
Proof.
  intros H z a z' E. unfold lift in E. destruct (f (z_sw z)) as [x w'| | | |] eqn:Ef; try discriminate. inversion E; subst.
  destruct (H _ _ _ Ef) as [H1 H2]. unfold adds, total, groups. destruct k; try reflexivity. cbn [z_ptrs z_sw]. split; [lia|].
  destruct (Nat.eq_dec (sw_calls (z_sw z)) (sw_calls w')) as [Hc|Hc]; [rewrite (H2 Hc); lia|].
  destruct (_ && _), (_ && _); lia.
Qed.
Lemma does_set_map pm : does 0 (set_map pm).
Proof. intros z a z' E. cbn in E. inversion E; subst. unfold adds, total, groups. destruct k; cbn; auto with arith. Qed.

Lemma remembered_push pt sa q :
  let pt1 := if negb (sa =? pg_addr (pt_current pt)) then new_ptr_group pt sa else pt in
  remembered (mkPtrs (group_push (pt_current pt1) q) (pt_past pt1)) = remembered pt ++ [q].
Proof.
  destruct pt as [[ga gp] past]. cbn [pt_current pg_addr]. unfold new_ptr_group, group_is_empty, remembered, group_push. cbn [pt_current pt_past pg_addr pg_pos].
  destruct (sa =? ga); cbn [negb].
  - cbn [pt_current pt_past pg_pos]. rewrite app_assoc. reflexivity.
  - destruct gp as [|x gp]; cbn [pt_current pt_past pg_pos group_new app].
    + rewrite app_nil_r. reflexivity.
    + rewrite flat_map_app. cbn [flat_map pg_pos]. rewrite app_nil_r. reflexivity.
Qed.

Lemma does_overwrite_ptr q t : does (match k with Complete => 1 | _ => 0 end)%nat (overwrite_ptr k q t).
Proof.
  assert (D : forall (c : M zs bool), (forall z a z', c z = Ok a z' -> z' = z) -> does 0 (dassert c)).
  { intros c H. apply does_pure. apply pure_dassert. exact H. }
  assert (K : forall z a z', ser_capacity z = Ok a z' -> z' = z).
  { intros [w mp pt] a z' H. unfold ser_capacity, lift, get_cap, gets in H. cbn in H. inversion H. reflexivity. }
  destruct k eqn:Ek; cbn [overwrite_ptr]; try (intros z a z' H; discriminate).
  - unfold po_overwrite_ptr.
    apply does_bind0; [apply D; apply pure_bind; [exact K|intros ?; apply pure_bind; [un|intros ?; un]]|intros _].
    apply does_bind0; [apply D; apply pure_is_aligned|intros _].
    apply does_bind0; [apply D; apply pure_bind; [exact K|intros ?; un]|intros _].
    apply does_lift. apply keeps_write_slice.
  - unfold co_overwrite_ptr.
    apply does_bind0; [apply D; apply pure_bind; [exact K|intros ?; apply pure_bind; [un|intros ?; un]]|intros _].
    apply does_bind0; [apply D; apply pure_is_aligned|intros _].
    apply does_bind0; [apply D; apply pure_bind; [exact K|intros ?; un]|intros _].
    intros z a z' H. unfold bind at 1 in H. unfold lift at 1, as_ptr, get_ptr, gets in H. cbn [z_sw] in H.
    unfold bind at 1 in H. unfold add_u in H.
    set (sa := s_ptr (sw_s (z_sw z))) in *.
    assert (Hz : mkZ (z_sw z) (z_map z) (z_ptrs z) = z) by (destruct z; reflexivity). rewrite Hz in H.
    assert (Hw : forall ta, (lift (write q usize_layout (word_src ta));;;
       (pt <- get_ptrs;; set_ptrs (let pt := if negb (sa =? pg_addr (pt_current pt)) then new_ptr_group pt sa else pt in
         mkPtrs (group_push (pt_current pt) q) (pt_past pt)))) z = Ok a z' -> adds 1 z z').
    { clear H. intros ta H. unfold bind at 1 in H. unfold lift in H. destruct (write q usize_layout (word_src ta) (z_sw z)) as [u w'| | | |] eqn:Ew; try discriminate.
      assert (Hp : s_ptr (sw_s w') = sa /\ sw_calls w' = sw_calls (z_sw z)).
      { unfold write, write_slice in Ew. unfold bind in Ew. cbn [get_cap gets] in Ew.
        destruct (dassert _ (z_sw z)) as [? w1| | | |] eqn:E1 in Ew; try discriminate. apply pure_dassert in E1; [|un]. subst w1.
        destruct (dassert _ (z_sw z)) as [? w1| | | |] eqn:E1 in Ew; try discriminate. apply pure_dassert in E1; [|pu]. subst w1.
        destruct (dassert _ (z_sw z)) as [? w1| | | |] eqn:E1 in Ew; try discriminate. apply pure_dassert in E1; [|apply pure_is_aligned]. subst w1.
        destruct (_ =? 0); [inversion Ew; subst; auto|]. destruct (_ && _); [|discriminate]. cbn in Ew. inversion Ew; subst. auto. }
      destruct Hp as [Hp1 Hp2]. unfold bind, get_ptrs, gets, set_ptrs, modify in H. cbn [z_ptrs z_sw z_map] in H. inversion H; subst z'; clear H.
      unfold adds. rewrite Ek. unfold total, groups. cbn [z_ptrs z_sw]. rewrite Hp1, Hp2. split.
      - rewrite remembered_push, app_length. cbn. lia.
      - destruct (z_ptrs z) as [[ga gp] past]. cbn [pt_current pt_past pg_addr]. unfold new_ptr_group, group_is_empty, group_push. cbn [pt_current pt_past pg_pos].
        fold sa; rewrite ?(N.eqb_sym ga sa). destruct (N.eqb_spec sa ga) as [<-|Hne]; cbn [negb andb pt_current pt_past pg_pos pg_addr].
        + rewrite ?N.eqb_refl, ?andb_false_r. destruct gp; cbn; lia.
        + destruct gp as [|x gp]; cbn [negb andb pt_current pt_past pg_pos pg_addr group_new app]; rewrite ?N.eqb_refl; cbn; rewrite ?app_length, ?N.eqb_refl; cbn; lia. }
    destruct (_ <? umod); [exact (Hw _ H)|]. destruct dbg; [discriminate|]. exact (Hw _ H).
Qed.

Lemma does_any {A} n n' (f : M zs A) : k <> Complete -> does n f -> does n' f.
Proof. intros Hk H z a z' E. specialize (H _ _ _ E). unfold adds in *. destruct k; congruence. Qed.
Lemma does_get_map : does 0 get_map.
Proof. apply does_pure. un. Qed.
Lemma does_ret {A} (x : A) : does 0 (ret x).
Proof. apply does_pure. un. Qed.
Lemma does_addr o : does 0 (addr_n (S := zs) o).
Proof. apply does_pure. destruct o; un. Qed.
Lemma does_pos pm o : does 0 (pos_for_addr (S := zs) pm o).
Proof. apply does_pure. unfold pos_for_addr. apply pure_bind; [destruct o; un|intros ?]. apply pure_bind; [un|intros ?; un]. Qed.
Lemma does_from a : does 0 (addr_from_ref (S := zs) k a).
Proof. apply does_pure. unfold addr_from_ref. destruct (tracking k); un. Qed.
Lemma does_from_off a o : does 0 (addr_from_ref_offset (S := zs) k a o).
Proof. apply does_pure. unfold addr_from_ref_offset. destruct (tracking k); [|un]. apply pure_bind; [un|intros ?; un]. Qed.
Lemma does_load (m : mem) a : does 0 (load_word (S := zs) m a).
Proof. apply does_pure. unfold load_word. destruct (read_word m a); un. Qed.
Lemma does_const {A} (x : option A) : does 0 (const_or (S := zs) x).
Proof. apply does_pure. destruct x; un. Qed.

Lemma does_pps s a (f : M zs unit) n : does n f -> does (S n) (push_and_process_slice k s a f).
Proof.
  intros Hf. pose proof (does_overwrite_ptr) as Ho. destruct k eqn:Ek; cbn [push_and_process_slice].
  - apply (does_any n); [congruence|]. unfold dflt_push_and_process_slice, push_raw_slice.
    apply does_bind0; [apply does_lift; apply keeps_push_slice|intros ?]. apply does_bind1; [exact Hf|intros ?; apply does_ret].
  - apply (does_any n); [congruence|]. unfold pt_push_and_process_slice.
    apply does_bind0; [apply does_get_map|intros ?]. apply does_bind0; [apply does_lift; apply keeps_push_slice|intros ?].
    apply does_bind0; [apply does_set_map|intros ?]. apply does_bind1; [exact Hf|intros ?].
    apply does_bind0; [apply does_set_map|intros ?; apply does_ret].
  - apply (does_any n); [congruence|]. unfold pw_push_and_process_slice.
    apply does_bind0; [apply does_get_map|intros ?]. apply does_bind0; [apply does_lift; apply keeps_push_slice|intros ?].
    apply does_bind0; [apply does_pos|intros ?]. apply does_bind0; [apply Ho|intros ?].
    apply does_bind0; [apply does_set_map|intros ?]. apply does_bind1; [exact Hf|intros ?].
    apply does_bind0; [apply does_set_map|intros ?; apply does_ret].
  - unfold pw_push_and_process_slice.
    apply does_bind0; [apply does_get_map|intros ?]. apply does_bind0; [apply does_lift; apply keeps_push_slice|intros ?].
    apply does_bind0; [apply does_pos|intros ?]. apply (does_bind 1 n); [apply Ho|intros ?].
    apply does_bind0; [apply does_set_map|intros ?]. apply does_bind1; [exact Hf|intros ?].
    apply does_bind0; [apply does_set_map|intros ?; apply does_ret].
Qed.
Lemma does_push s a : does 1 (ser_push_slice k s a).
Proof.
  pose proof does_overwrite_ptr as Ho. pose proof (does_pps s a (ret tt) 0 (does_ret tt)) as Hp.
  destruct k eqn:Ek; cbn [ser_push_slice].
  - exact Hp.
  - apply (does_any 0); [congruence|]. apply does_lift. apply keeps_push_slice.
  - apply (does_any 0); [congruence|]. unfold pw_push_slice.
    apply does_bind0; [apply does_lift; apply keeps_push_slice|intros ?]. apply does_bind0; [apply does_get_map|intros ?].
    apply does_bind0; [apply does_pos|intros ?]. apply does_bind0; [apply Ho|intros ?; apply does_ret].
  - unfold pw_push_slice.
    apply does_bind0; [apply does_lift; apply keeps_push_slice|intros ?]. apply does_bind0; [apply does_get_map|intros ?].
    apply does_bind0; [apply does_pos|intros ?]. apply does_bind1; [apply Ho|intros ?; apply does_ret].
Qed.
Lemma does_overwrite a l d : does 0 (overwrite k a l d).
Proof.
  destruct k; cbn [overwrite]; try apply does_ret. unfold do_overwrite.
  apply does_bind0; [apply does_get_map|intros ?]. apply does_bind0; [apply does_pos|intros ?]. apply does_lift. apply keeps_write_slice.
Qed.
Lemma does_overwrite_with f : does 0 f -> does 0 (overwrite_with k f).
Proof. intros H. destruct k; cbn [overwrite_with]; try apply does_ret. exact H. Qed.
Lemma does_overwrite_empty vo d a : does 0 (overwrite_empty k vo d a).
Proof.
  unfold overwrite_empty.
  repeat match goal with |- does _ (if ?b then _ else _) => destruct b end;
    repeat first [apply does_overwrite|apply does_bind0; [first [apply does_from|apply does_from_off|apply does_overwrite]|intros ?]].
Qed.

Section V.
Variable E : tenv.
Variable m : mem.
Variable H : header.
Hypothesis HE : wf_env E.

Fixpoint owned_fields' (vs : list val) (fs : list (N * ty)) : list (layout * N) :=
  match vs, fs with
  | v :: vs', (_, t) :: fs' => owned E t v ++ owned_fields' vs' fs'
  | _, _ => []
  end.

Lemma does_cap vl l a n : does 0 (overwrite_with k (
        cap <- load_word m (a + cap_off vl) ;;
        if negb (cap =? n) then
          (vo <- const_or (vec_offsets vl l) ;;
           cap_addr <- addr_from_ref_offset k a (vo_cap vo) ;;
           overwrite k cap_addr usize_layout (word_src n))
        else ret tt)).
Proof.
  apply does_overwrite_with. apply does_bind0; [apply does_load|intros ?]. destruct (negb _); [|apply does_ret].
  apply does_bind0; [apply does_const|intros ?]. apply does_bind0; [apply does_from_off|intros ?]. apply does_overwrite.
Qed.
Lemma does_empty vl l a : does 0 (overwrite_with k (
        cap <- load_word m (a + cap_off vl) ;;
        if negb (cap =? 0) then
          (vo <- const_or (vec_offsets vl l) ;;
           overwrite_empty k vo l a)
        else ret tt)).
Proof.
  apply does_overwrite_with. apply does_bind0; [apply does_load|intros ?]. destruct (negb _); [|apply does_ret].
  apply does_bind0; [apply does_const|intros ?]. apply does_overwrite_empty.
Qed.

Lemma does_ser_data t a v : repr E H m t a v -> forall fuel, (vdepth v < fuel)%nat -> does (length (owned E t v)) (ser_data k E m fuel t a).
Proof.
  intros HR. revert t a v HR.
  apply (repr_mind P E H m
    (fun t a v _ => forall fuel, (vdepth v < fuel)%nat -> does (length (owned E t v)) (ser_data k E m fuel t a))
    (fun t a vs _ => forall fuel, (list_max (map vdepth vs) < fuel)%nat ->
       does (length (flat_map (owned E t) vs)) (for_elems (length vs) a (size_of E t) (ser_data k E m fuel t)))
    (fun fs a vs _ => forall fuel, (list_max (map vdepth vs) < fuel)%nat ->
       does (length (owned_fields' vs fs)) (for_fields fs a (ser_data k E m fuel)))).
  - intros l ok a n _ _ [|fuel] Hf; [lia|]. cbn. apply does_ret.
  - intros t a p v Hp _ _ _ IH [|fuel] Hf; [lia|]. cbn [ser_data resolve owned]. unfold ser_box. destruct (_ =? 0); [apply does_ret|].
    apply does_bind0; [apply does_from|intros ?]. intros z x z' Hz. unfold bind at 1 in Hz. unfold load_word in Hz. rewrite Hp in Hz. revert Hz.
    cbn [length]. apply does_bind1; [|intros ?; apply does_ret]. unfold push_and_process. apply does_pps. apply IH. cbn in Hf. lia.
  - intros vl t a c p vs Hc Hp Hn _ _ _ IH [|fuel] Hf; [lia|]. cbn [ser_data resolve owned]. unfold ser_vec. destruct (_ =? 0); [apply does_ret|].
    cbn [orb]. intros z x z' Hz. unfold bind at 1 in Hz. unfold load_word at 1 in Hz. rewrite Hn in Hz. revert z x z' Hz.
    change (does (length (if N.of_nat (length vs) =? 0 then [] else (layout_of E t, N.of_nat (length vs)) :: flat_map (owned E t) vs))
      (if N.of_nat (length vs) =? 0 then
        overwrite_with k (
          cap <- load_word m (a + cap_off vl) ;;
          if negb (cap =? 0) then
            (vo <- const_or (vec_offsets vl (align_of E t)) ;;
             overwrite_empty k vo (align_of E t) a)
          else ret tt)
      else
        overwrite_with k (
          cap <- load_word m (a + cap_off vl) ;;
          if negb (cap =? N.of_nat (length vs)) then
            (vo <- const_or (vec_offsets vl (align_of E t)) ;;
             cap_addr <- addr_from_ref_offset k a (vo_cap vo) ;;
             overwrite k cap_addr usize_layout (word_src (N.of_nat (length vs))))
          else ret tt) ;;;
        vo <- const_or (vec_offsets vl (align_of E t)) ;;
        ptr_addr <- addr_from_ref_offset k a (vo_ptr vo) ;;
        p <- load_word m (a + ptr_off vl) ;;
        push_and_process_slice k (slice_at m (layout_of E t) p (N.of_nat (length vs))) ptr_addr
          (for_elems (N.to_nat (N.of_nat (length vs))) p (size_of E t) (ser_data k E m fuel t)) ;;;
        ret tt)).
    destruct (N.of_nat (length vs) =? 0); [apply does_empty|].
    apply does_bind0; [apply does_cap|intros ?]. apply does_bind0; [apply does_const|intros ?]. apply does_bind0; [apply does_from_off|intros ?].
    intros z x z' Hz. unfold bind at 1 in Hz. unfold load_word in Hz. rewrite Hp in Hz. revert Hz.
    cbn [length]. apply does_bind1; [|intros ?; apply does_ret]. apply does_pps. rewrite Nnat.Nat2N.id. apply IH. cbn in Hf. lia.
  - intros vl a c p bs Hc Hp Hn _ _ _ [|fuel] Hf; [lia|]. cbn [ser_data resolve owned]. unfold ser_string.
    intros z x z' Hz. unfold bind at 1 in Hz. unfold load_word at 1 in Hz. rewrite Hn in Hz. cbn [ret] in Hz.
    destruct (N.of_nat (length bs) =? 0); [revert Hz; apply does_empty|]. revert z x z' Hz.
    change (does 1 (overwrite_with k (
          cap <- load_word m (a + cap_off vl) ;;
          if negb (cap =? N.of_nat (length bs)) then
            (vo <- const_or (vec_offsets vl 1) ;;
             cap_addr <- addr_from_ref_offset k a (vo_cap vo) ;;
             overwrite k cap_addr usize_layout (word_src (N.of_nat (length bs))))
          else ret tt) ;;;
        vo <- const_or (vec_offsets vl 1) ;;
        ptr_addr <- addr_from_ref_offset k a (vo_ptr vo) ;;
        p <- load_word m (a + ptr_off vl) ;;
        ser_push_slice k (slice_at m u8_layout p (N.of_nat (length bs))) ptr_addr ;;;
        ret tt)).
    apply does_bind0; [apply does_cap|intros ?]. apply does_bind0; [apply does_const|intros ?]. apply does_bind0; [apply does_from_off|intros ?].
    apply does_bind0; [apply does_load|intros ?]. apply does_bind1; [apply does_push|intros ?; apply does_ret].
  - intros t n a vs -> _ IH [|fuel] Hf; [lia|]. cbn [ser_data resolve owned]. rewrite Nnat.Nat2N.id. apply IH. cbn in Hf. lia.
  - intros l fs a vs _ IH [|fuel] Hf; [lia|]. cbn [ser_data resolve owned]. apply IH. cbn in Hf. lia.
  - intros l d vss a j fs vs Hd Hj _ IH [|fuel] Hf; [lia|]. cbn [ser_data resolve owned]. rewrite Hd, Hj. apply IH. cbn in Hf. lia.
  - intros id d a v Hid Hv IH [|fuel] Hf; [lia|]. specialize (IH (S fuel) Hf). rewrite (owned_named E HE id d v Hid). cbn [ser_data] in *.
    destruct (resolve_named E HE id d Hid) as [Q1 Q2]. rewrite Q1. rewrite Q2 in IH. exact IH.
  - intros t a fuel Hf. cbn. apply does_ret.
  - intros t a v vs _ IH1 _ IH2 fuel Hf. cbn [map] in Hf. rewrite list_max_cons in Hf. cbn [flat_map length for_elems]. rewrite app_length.
    apply does_bind; [apply IH1; lia|intros ?; apply IH2; lia].
  - intros a fuel Hf. cbn. apply does_ret.
  - intros off t fs a v vs _ IH1 _ IH2 fuel Hf. cbn [map] in Hf. rewrite list_max_cons in Hf. cbn [owned_fields' for_fields]. rewrite app_length.
    apply does_bind; [apply IH1; lia|intros ?; apply IH2; lia].
Qed.

Lemma does_serialize_value t a v fuel : repr E H m t a v -> (vdepth v < fuel)%nat ->
  does (length (owned E t v)) (serialize_value k E m fuel t a).
Proof.
  intros HR Hf. pose proof (does_ser_data t a v HR fuel Hf) as Hd. unfold serialize_value, serialize_value_with.
  destruct k; unfold push_raw, push_raw_slice; (apply does_bind0; [apply does_lift; apply keeps_push_slice|intros ?]);
    try (apply does_bind0; [apply does_set_map|intros ?]); (apply does_bind1; [exact Hd|intros ?; apply does_ret]).
Qed.

Definition owned_all (xs : list (ty * N * val)) : nat :=
  fold_right (fun x n => (length (owned E (fst (fst x)) (snd x)) + n)%nat) 0%nat xs.

Lemma does_serialize_values fuel : forall xs,
  Forall (fun '(t, a, v) => repr E H m t a v /\ (vdepth v < fuel)%nat) xs ->
  does (owned_all xs) (serialize_values k E m fuel (map fst xs)).
Proof.
  induction xs as [|[[t a] v] xs IH]; intros Hx; cbn [map serialize_values fst]; [apply does_ret|].
  inversion Hx as [|? ? K K3]; subst. destruct K as [K1 K2]. cbn [owned_all fold_right fst snd].
  apply does_bind; [apply does_serialize_value; assumption|intros ?]. apply does_bind1; [apply IH; exact K3|intros ?; apply does_ret].
Qed.

Lemma finalize_keeps z a z' : finalize k z = Ok a z' -> z_ptrs z' = z_ptrs z /\ sw_calls (z_sw z') = sw_calls (z_sw z).
Proof.
  assert (L : forall (f : M sw unit), no_call f -> forall y b y', lift f y = Ok b y' -> z_ptrs y' = z_ptrs y /\ sw_calls (z_sw y') = sw_calls (z_sw y)).
  { intros f Hf y b y' Hy. unfold lift in Hy. destruct (f (z_sw y)) as [u w'| | | |] eqn:Ef; try discriminate. inversion Hy; subst.
    cbn. split; [reflexivity|]. eapply Hf; eauto. }
  assert (NR : no_call (ret tt : M sw unit)) by (intros w x w' Hw; inversion Hw; reflexivity).
  assert (N0 : forall s l, no_call (correct_all s l)).
  { intros s. induction l as [|p l IH]; cbn [correct_all]; [exact NR|]. intros w x w' Hw. unfold bind in Hw.
    destruct (correct_ptr s p w) as [u w1| | | |] eqn:E1; try discriminate. specialize (IH _ _ _ Hw). rewrite IH.
    unfold correct_ptr in E1. destruct (_ && _); [|discriminate]. destruct (read_word _ _); [|discriminate]. cbn in E1. inversion E1; subst. reflexivity. }
  assert (N1 : forall gs sp, no_call (correct_past gs sp)).
  { induction gs as [|g gs IH]; intros sp; cbn [correct_past]; [exact NR|]. intros w x w' Hw. unfold bind in Hw.
    destruct (negb _); [destruct (correct_ptrs g sp w) as [u w1| | | |] eqn:E1; try discriminate; rewrite (IH _ _ _ _ Hw); eapply N0; exact E1|].
    cbn in Hw. eapply IH; eauto. }
  destruct k; cbn [finalize]; try (intros Hz; inversion Hz; subst; auto; fail). unfold co_finalize. intros Hz.
  unfold bind at 1 in Hz. unfold lift at 1, as_ptr, get_ptr, gets in Hz. unfold bind at 1 in Hz. unfold get_ptrs, gets in Hz. cbn [z_sw z_ptrs] in Hz.
  unfold bind at 1 in Hz. destruct (_ && _).
  - destruct (lift _ _) as [u z1| | | |] eqn:E1 in Hz; try discriminate.
    destruct (L _ (N0 _ _) _ _ _ E1) as [A1 A2]. destruct (L _ (N1 _ _) _ _ _ Hz) as [B1 B2]. cbn in A1, A2. split; congruence.
  - cbn [ret] in Hz. destruct (L _ (N1 _ _) _ _ _ Hz) as [B1 B2]. cbn in B1, B2. split; congruence.
Qed.

Theorem record_after fuel xs w ps z :
  Forall (fun '(t, a, v) => repr E H m t a v /\ (vdepth v < fuel)%nat) xs ->
  serialize_all k E m fuel (map fst xs) (from_storage w) = Ok ps z ->
  match k with
  | Complete => length (remembered (z_ptrs z)) = owned_all xs /\
      (length (pt_past (z_ptrs z)) + sw_calls w <= sw_calls (z_sw z))%nat
  | _ => z_ptrs z = ptrs_new
  end.
Proof.
  intros Hx Hs. unfold serialize_all in Hs. unfold bind at 1 in Hs.
  destruct (serialize_values _ _ _ _ _ _) as [r z1| | | |] eqn:E1 in Hs; try discriminate.
  unfold bind in Hs. destruct (finalize k z1) as [u z2| | | |] eqn:E2; try discriminate. cbn in Hs. inversion Hs; subst.
  destruct (finalize_keeps _ _ _ E2) as [F1 F2]. pose proof (does_serialize_values fuel xs Hx _ _ _ E1) as D. unfold adds in D.
  rewrite F1, F2. destruct k; try exact D. unfold total, groups in D. cbn in D. lia.
Qed.

End V.
End R.
