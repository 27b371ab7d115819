(** * GenSerAV: over AlignedVec, the serializers of GenSerializer.v are those of
    Serializer.v and Serialize.v, and AlignedVec is a storage for every kind. *)
From Verif Require Import Base Types Storage Serializer Serialize Spec ArithFacts StorageFacts StorageHist
  MemFacts TypeFacts SerFacts GenStorage GenSpec GenFacts PropGen GenSerializer GenSerSpec.
From Coq Require Import ZifyBool ZifyNat ZifyN.
Local Open Scope N_scope.

Definition to_zs (z : gz sw) : zs := mkZ (gz_st z) (gz_map z) (gz_ptrs z).
Definition on_state {A B X} (f : A -> B) (o : outcome A X) : outcome B X :=
  match o with
  | Ok x a => Ok x (f a)
  | Panic p a => Panic p (f a)
  | Abort => Abort | UB => UB | OutOfFuel => OutOfFuel
  end.

Section Sim.
Context {P : Params}.
Notation AV := (aligned_vec_ra (P := P)).

Definition sim {A} (g : M (gz sw) A) (f : M zs A) : Prop := forall z, on_state to_zs (g z) = f (to_zs z).

Lemma sim_ret {A} (x : A) : sim (ret x) (ret x). Proof. intros z. reflexivity. Qed.
Lemma sim_bind {A B} g1 f1 (g2 : A -> M (gz sw) B) f2 :
  sim g1 f1 -> (forall x, sim (g2 x) (f2 x)) -> sim (bind g1 g2) (bind f1 f2).
Proof.
  intros H1 H2 z. unfold bind. rewrite <- (H1 z). destruct (g1 z); cbn; try reflexivity. apply H2.
Qed.
Lemma sim_lift {A} (m : M sw A) : sim (glift m) (lift m).
Proof. intros z. unfold glift, lift. cbn. destruct (m (gz_st z)); reflexivity. Qed.
Lemma sim_ub {A} : sim (A := A) ub ub. Proof. intros z. reflexivity. Qed.
Lemma sim_panics {A} p : sim (A := A) (panics p) (panics p). Proof. intros z. reflexivity. Qed.
Lemma sim_fuel {A} : sim (A := A) (fun _ => OutOfFuel) (fun _ => OutOfFuel). Proof. intros z. reflexivity. Qed.
Lemma sim_dassert g f : sim g f -> sim (dassert g) (dassert f).
Proof.
  intros HS. unfold dassert. destruct dbg; [|apply sim_ret].
  apply sim_bind; [exact HS|]. intros [|]; [apply sim_ret|apply sim_panics].
Qed.
Lemma sim_get_map : sim g_get_map get_map. Proof. intros z. reflexivity. Qed.
Lemma sim_set_map pm : sim (g_set_map pm) (set_map pm). Proof. intros z. reflexivity. Qed.
Lemma sim_get_ptrs : sim g_get_ptrs get_ptrs. Proof. intros z. reflexivity. Qed.
Lemma sim_set_ptrs pm : sim (g_set_ptrs pm) (set_ptrs pm). Proof. intros z. reflexivity. Qed.
Lemma sim_cap : sim (g_capacity AV) ser_capacity. Proof. intros z. reflexivity. Qed.
Lemma sim_as_ptr : sim (gets (fun z => r_as_ptr AV (gz_st z))) (lift as_ptr). Proof. intros z. reflexivity. Qed.
Lemma sim_const {A} (o : option A) : sim (const_or o) (const_or o).
Proof. destruct o; [apply sim_ret|apply sim_panics]. Qed.
Lemma sim_load m a : sim (load_word m a) (load_word m a).
Proof. unfold load_word. destruct (read_word m a); [apply sim_ret|apply sim_ub]. Qed.
Lemma sim_add a b : sim (add_u a b) (add_u a b).
Proof. intros z. unfold add_u, panics, ret. destruct dbg, (_ <? _); reflexivity. Qed.
Lemma sim_sub a b : sim (sub_u a b) (sub_u a b).
Proof. intros z. unfold sub_u, panics, ret. destruct dbg, (_ <=? _); reflexivity. Qed.

Create HintDb sims.
Hint Resolve sim_ret sim_lift sim_ub sim_panics sim_get_map sim_set_map sim_get_ptrs sim_set_ptrs
  sim_cap sim_as_ptr sim_const sim_load sim_add sim_sub sim_fuel : sims.
Ltac sim :=
  repeat (auto with sims;
    first [ apply sim_bind; [|intros ?] | apply sim_dassert
          | match goal with |- sim (if ?b then _ else _) _ => destruct b end
          | match goal with |- sim (match ?b with _ => _ end) _ => destruct b end ]).

Lemma sim_aligned a b : sim (is_aligned_to a b) (is_aligned_to a b).
Proof. unfold is_aligned_to. sim. Qed.
Hint Resolve sim_aligned : sims.
Lemma sim_afr k a : sim (addr_from_ref k a) (addr_from_ref k a).
Proof. unfold addr_from_ref. sim. Qed.
Lemma sim_afro k a o : sim (addr_from_ref_offset k a o) (addr_from_ref_offset k a o).
Proof. unfold addr_from_ref_offset. sim. Qed.
Lemma sim_pfa pm a : sim (pos_for_addr pm a) (pos_for_addr pm a).
Proof. unfold pos_for_addr, addr_n. sim. Qed.
Lemma sim_push l n d : sim (glift (g_push_slice (r_st AV) l n d)) (lift (push_slice l n d)).
Proof. apply sim_lift. Qed.
Hint Resolve sim_afr sim_afro sim_pfa sim_push : sims.
Lemma sim_write q l d : sim (glift (g_write AV q l d)) (lift (write q l d)).
Proof. apply sim_lift. Qed.
Hint Resolve sim_write : sims.

Lemma sim_overwrite_ptr k q t : sim (g_overwrite_ptr AV k q t) (overwrite_ptr k q t).
Proof.
  destruct k; cbn [g_overwrite_ptr overwrite_ptr]; unfold g_po_overwrite_ptr, po_overwrite_ptr,
    g_co_overwrite_ptr, co_overwrite_ptr; sim.
Qed.
Hint Resolve sim_overwrite_ptr : sims.
Lemma sim_pps k s a g f : sim g f ->
  sim (g_push_and_process_slice AV k s a g) (push_and_process_slice k s a f).
Proof.
  intros HS. destruct k; cbn [g_push_and_process_slice push_and_process_slice];
    unfold dflt_push_and_process_slice, pt_push_and_process_slice, pw_push_and_process_slice,
      g_push_raw_slice, push_raw_slice; sim.
Qed.
Lemma sim_ser_push k s a : sim (g_ser_push_slice AV k s a) (ser_push_slice k s a).
Proof.
  destruct k; cbn [g_ser_push_slice ser_push_slice].
  - apply sim_pps, sim_ret.
  - apply sim_push.
  - unfold g_pw_push_slice, pw_push_slice, g_push_raw_slice, push_raw_slice. sim.
  - unfold g_pw_push_slice, pw_push_slice, g_push_raw_slice, push_raw_slice. sim.
Qed.
Lemma sim_overwrite k a l d : sim (g_overwrite AV k a l d) (overwrite k a l d).
Proof. destruct k; cbn [g_overwrite overwrite]; unfold g_do_overwrite, do_overwrite; sim. Qed.
Hint Resolve sim_pps sim_ser_push sim_overwrite : sims.
Lemma sim_overwrite_with k g f : sim g f -> sim (g_overwrite_with k g) (overwrite_with k f).
Proof. destruct k; cbn [g_overwrite_with overwrite_with]; sim. Qed.
Lemma sim_overwrite_empty k vo d a : sim (g_overwrite_empty AV k vo d a) (overwrite_empty k vo d a).
Proof. unfold g_overwrite_empty, overwrite_empty. sim. Qed.
Lemma sim_for_elems sz (g : N -> M (gz sw) unit) f : (forall a, sim (g a) (f a)) ->
  forall n a, sim (g_for_elems n a sz g) (for_elems n a sz f).
Proof. intros HS. induction n as [|n IH]; intros a; cbn [g_for_elems for_elems]; sim. Qed.
Lemma sim_for_fields (g : ty -> N -> M (gz sw) unit) f : (forall t a, sim (g t a) (f t a)) ->
  forall fs a, sim (g_for_fields fs a g) (for_fields fs a f).
Proof. intros HS. induction fs as [|[o t] fs IH]; intros a; cbn [g_for_fields for_fields]; sim. Qed.

Section Impl.
Variable k : kind.
Variable E : tenv.
Variable m : mem.

Lemma sim_ser_data : forall fuel t a, sim (g_ser_data AV k E m fuel t a) (ser_data k E m fuel t a).
Proof.
  induction fuel as [|fuel IH]; intros t a; cbn [g_ser_data ser_data]; [apply sim_fuel|].
  destruct (resolve E t); auto with sims.
  - unfold g_ser_box, ser_box, push_and_process. sim.
  - unfold g_ser_vec, ser_vec. sim; try (apply sim_overwrite_with; sim; apply sim_overwrite_empty).
    apply sim_pps, sim_for_elems. intros; apply IH.
  - unfold g_ser_string, ser_string. sim; try (apply sim_overwrite_with; sim; apply sim_overwrite_empty).
  - apply sim_for_elems. intros; apply IH.
  - apply sim_for_fields. intros; apply IH.
  - sim. apply sim_for_fields. intros; apply IH.
Qed.

Lemma sim_finalize : sim (g_finalize AV k) (finalize k).
Proof.
  destruct k; cbn [g_finalize finalize]; auto with sims.
  unfold g_co_finalize, co_finalize. sim.
Qed.

Lemma sim_serialize_value fuel t a :
  sim (g_serialize_value AV k E m fuel t a) (serialize_value k E m fuel t a).
Proof.
  pose proof (sim_ser_data fuel t a).
  unfold g_serialize_value, serialize_value, g_serialize_value_with, serialize_value_with,
    push_raw, g_push_raw_slice, push_raw_slice.
  destruct k; sim.
Qed.

Lemma sim_serialize_all fuel vs :
  sim (g_serialize_all AV k E m fuel vs) (serialize_all k E m fuel vs).
Proof.
  assert (HV : sim (g_serialize_values AV k E m fuel vs) (serialize_values k E m fuel vs)).
  { induction vs as [|[t a] vs IH]; cbn [g_serialize_values serialize_values]; [apply sim_ret|].
    apply sim_bind; [apply sim_serialize_value|]. intros x. sim. }
  unfold g_serialize_all, serialize_all. apply sim_bind; [exact HV|]. intros x.
  apply sim_bind; [apply sim_finalize|]. intros []. apply sim_ret.
Qed.
Lemma sim_serialize fuel t a :
  sim (g_serialize AV k E m fuel t a) (serialize k E m fuel t a).
Proof.
  unfold g_serialize, serialize. apply sim_bind; [apply sim_serialize_value|]. intros x.
  apply sim_bind; [apply sim_finalize|]. intros []. apply sim_ret.
Qed.
End Impl.

(** ** AlignedVec as a storage for every kind of serializer *)
Section AV.
Hypothesis C : cfg_ok.
Ltac cfg :=
  pose proof (c_SA_pos C); pose proof (c_MVA_pos C); pose proof (c_VA_pos C);
  pose proof (c_VA_MVA C); pose proof (c_MVA_SA C); pose proof (c_MAXC C);
  pose proof (c_MVA_le_MAXC C); pose proof (c_sum C); pose proof (c_umod C);
  pose proof (c_SA_lt_imax C); pose proof (pW_vals (c_machine C)).

Lemma av_writes_in_place : writes_in_place AV av_inv av_contents.
Proof.
  intros w q l n data Hi Hg Hs Hn Hd Hfit. cfg. cbn in Hfit |- *.
  destruct Hi as (I1 & I2 & I3 & I4 & I5). cbn in *.
  assert (0 < l_size l * n) by (apply N.mul_pos_pos; lia).
  destruct (I5 ltac:(lia)) as (P1 & P2 & P3).
  eexists. split.
  { apply (write_slice_eq C); auto; try lia. right; left. split; [lia|exact P2]. }
  rewrite (proj2 (N.eqb_neq (l_size l) 0)) by lia.
  unfold av_inv; cbn. ands; auto. apply same_below_refl.
Qed.

Lemma av_contiguous : contiguous AV av_inv.
Proof. intros w (I1 & I2 & I3 & I4 & I5) Hc. cbn in *. destruct (I5 Hc) as (J1 & J2 & J3). repeat split; auto. lia. Qed.

Lemma av_ptrs_through : ptrs_through AV av_inv av_contents.
Proof.
  intros w q x sh Hi Hm Hq Hfit Hx. cfg. cbn in Hfit |- *.
  destruct Hi as (I1 & I2 & I3 & I4 & I5). cbn in *.
  destruct (I5 ltac:(lia)) as (P1 & P2 & P3).
  unfold correct_ptr. change (s_buf (sw_s w)) with (av_contents w).
  rewrite (proj2 (N.leb_le _ _)) by lia.
  rewrite (proj2 (mod_eqb_divide pW (s_ptr (sw_s w) + q) ltac:(lia))).
  2:{ apply N.divide_add_r; [|exact Hq]. eapply divide_trans; [|exact P2].
      apply pow2_divide; [apply pW_pow2, (c_machine C)|apply (c_SA C)|lia]. }
  cbn [andb]. rewrite Hx. unfold put_buf. eexists. split; [reflexivity|].
  unfold av_inv; cbn. ands; auto. apply same_below_refl.
Qed.

Lemma av_storage_for k : storage_for k AV av_inv av_contents.
Proof.
  destruct k; cbn; auto using av_writes_in_place, av_contiguous, av_ptrs_through.
Qed.
End AV.
End Sim.
