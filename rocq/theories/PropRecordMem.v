(** * PropRecordMem: C82 — the memory CompleteSerializer's record takes.

    The model keeps the positions of pointers in lists (Serializer.v ptrs, pos.rs:149-213).  Here the two kinds
    of Vec behind them: how far they grow, and that they never overflow isize::MAX bytes. *)
From Coq Require Import List Arith Lia.
From Verif Require Import Base Types Storage Serializer Serialize Spec ArithFacts
  StorageFacts StorageHist Frame MemFacts TypeFacts SerFacts SerMain SerValue SerRoot SerProps Cost Record
  PropStorage PropSerialize PropCost PropUse PropEncode Demo WitnessSerialize PropRecord.
From Coq Require Import ZifyBool ZifyNat ZifyN.
Import ListNotations.
Local Open Scope N_scope.

(** ** Specification: std's Vec

    Vec::push on a full Vec asks for twice the capacity, at least for 4 elements (alloc::raw_vec, grow_amortized).
    [vec_cap n]: the capacity after n pushes onto [Vec::new()]. *)
Fixpoint vec_cap (n : nat) : N :=
  match n with
  | O => 0
  | S n' => if vec_cap n' =? N.of_nat n' then N.max 4 (N.max (2 * vec_cap n') (N.of_nat n' + 1)) else vec_cap n'
  end.
(** None of the [n] pushes panics with "capacity overflow": never more than isize::MAX bytes asked for. *)
Definition no_overflow {P : Params} (size : N) (n : nat) : Prop :=
  forall j, (j <= n)%nat -> vec_cap j * size <= imax.

Section Mem.
Context {P : Params}.

(** Bytes of the record: PtrGroup (pos.rs:167-172) is an address and a Vec<usize>: four words. *)
Definition positions_bytes (g : pgroup) : N := vec_cap (length (pg_pos g)) * pW.
Fixpoint sum_bytes (gs : list pgroup) : N :=
  match gs with [] => 0 | g :: gs' => positions_bytes g + sum_bytes gs' end.
Definition record_bytes (p : ptrs) : N :=
  positions_bytes (pt_current p) + sum_bytes (pt_past p) + vec_cap (length (pt_past p)) * (4 * pW).

(** ** Vec *)
Lemma vec_cap_ge n : N.of_nat n <= vec_cap n.
Proof.
  induction n as [|n IH]; [reflexivity|]. cbn [vec_cap]. destruct (vec_cap n =? N.of_nat n) eqn:He; lia.
Qed.
Lemma vec_cap_le n : vec_cap n <= N.max 4 (2 * (N.of_nat n - 1)).
Proof.
  induction n as [|n IH]; [cbn; lia|]. cbn [vec_cap]. destruct (vec_cap n =? N.of_nat n) eqn:He; lia.
Qed.
Lemma vec_cap_le2 n : vec_cap n <= 2 * N.of_nat n + 4.
Proof. pose proof (vec_cap_le n). lia. Qed.
Lemma vec_cap_mono j n : (j <= n)%nat -> vec_cap j <= vec_cap n.
Proof.
  induction 1 as [|n Hn IH]; [lia|]. cbn [vec_cap]. destruct (vec_cap n =? N.of_nat n) eqn:He; lia.
Qed.

(** ** Disjoint intervals inside another *)
Fixpoint lengths (xs : list (N * N)) : N := match xs with [] => 0 | (_, s) :: xs' => s + lengths xs' end.
Definition sep (x y : N * N) : Prop := fst x + snd x <= fst y \/ fst y + snd y <= fst x.

Lemma pairs_filter (R : N * N -> N * N -> Prop) f xs : ForallOrdPairs R xs -> ForallOrdPairs R (filter f xs).
Proof.
  induction 1 as [|x xs Hx Hxs IH]; cbn [filter]; [constructor|]. destruct (f x); [|exact IH]. constructor; [|exact IH].
  apply Forall_forall. intros y Hy. apply filter_In in Hy. rewrite Forall_forall in Hx. apply Hx, Hy.
Qed.
Lemma lengths_split f xs : lengths xs = lengths (filter f xs) + lengths (filter (fun x => negb (f x)) xs).
Proof.
  induction xs as [|[o s] xs IH]; [reflexivity|]. cbn [filter lengths]. destruct (f (o, s)); cbn [negb lengths]; lia.
Qed.
Lemma filter_len {A} (f : A -> bool) xs : (length (filter f xs) <= length xs)%nat.
Proof. induction xs as [|x xs IH]; cbn; [lia|]. destruct (f x); cbn; lia. Qed.

Lemma lengths_le : forall n xs lo hi, (length xs <= n)%nat -> lo <= hi ->
  Forall (fun x => lo <= fst x /\ fst x + snd x <= hi) xs -> ForallOrdPairs sep xs ->
  lengths xs <= hi - lo.
Proof.
  induction n as [|n IH]; intros xs lo hi Hn Hlh Hin Hs.
  { destruct xs; [cbn; lia|cbn in Hn; lia]. }
  destruct xs as [|[o s] xs]; [cbn; lia|]. cbn [length] in Hn.
  inversion Hin as [|? ? [H1 H2] Hin']; subst. inversion Hs as [|? ? Hx Hs']; subst. cbn [fst snd] in *.
  cbn [lengths]. set (f := fun x : N * N => fst x + snd x <=? o). rewrite (lengths_split f xs).
  rewrite Forall_forall in Hin', Hx.
  assert (L : lengths (filter f xs) <= o - lo).
  { apply IH; [pose proof (filter_len f xs); lia|lia| |apply pairs_filter; exact Hs'].
    apply Forall_forall. intros x Hxi. apply filter_In in Hxi. destruct Hxi as [A B]. subst f. cbn in B.
    specialize (Hin' x A). lia. }
  assert (R : lengths (filter (fun x => negb (f x)) xs) <= hi - (o + s)).
  { apply IH; [pose proof (filter_len (fun x => negb (f x)) xs); lia|lia| |apply pairs_filter; exact Hs'].
    apply Forall_forall. intros x Hxi. apply filter_In in Hxi. destruct Hxi as [A B]. subst f. cbn in B.
    specialize (Hin' x A). specialize (Hx x A). unfold sep in Hx. cbn [fst snd] in Hx. lia. }
  lia.
Qed.

Section E.
Variable E : tenv.
Hypothesis HE : wf_env E.

Definition spans (fs : list (N * ty)) : list (N * N) := map (fun x => (fst x, size_of E (snd x))) fs.
Lemma fields_sum l fs : fields_ok E l fs -> lengths (spans fs) <= l_size l.
Proof.
  intros Hf. rewrite <- (N.sub_0_r (l_size l)). apply (lengths_le (length (spans fs))); [lia|lia| |].
  - apply Forall_map. apply Forall_forall. intros [o t] Hi. cbn [fst snd].
    induction Hf as [|off u fs H1 H2 H3 H4 H5 IH]; [destruct Hi|]. destruct Hi as [Hi|Hi]; [|auto].
    injection Hi as <- <-. lia.
  - induction Hf as [|off u fs H1 H2 H3 H4 H5 IH]; [constructor|]. cbn [spans map]. constructor; [|exact IH].
    apply Forall_map. apply Forall_forall. intros [o t] Hi. unfold sep. cbn [fst snd]. exact (H4 o t Hi).
Qed.

Lemma data_app xs ys : data_size (xs ++ ys) = data_size xs + data_size ys.
Proof. induction xs as [|[l n] xs IH]; cbn [app data_size]; [reflexivity|]. lia. Qed.

(** A pointer takes a word of what holds it. *)
Definition word_each (owns : list (layout * N)) (room : N) : Prop :=
  N.of_nat (length owns) * pW <= room + data_size owns.

Lemma words H m :
  (forall t a v, repr E H m t a v -> wf_ty E t -> word_each (owned E t v) (size_of E t)) /\
  (forall t a vs, repr_elems E H m t a vs -> wf_ty E t ->
     word_each (flat_map (owned E t) vs) (size_of E t * N.of_nat (length vs))) /\
  (forall fs a vs, repr_fields E H m fs a vs -> (forall o t, In (o, t) fs -> wf_ty E t) ->
     word_each (owned_fields E vs fs) (lengths (spans fs))).
Proof.
  apply (repr_mut P E H m
    (fun t a v => wf_ty E t -> word_each (owned E t v) (size_of E t))
    (fun t a vs => wf_ty E t -> word_each (flat_map (owned E t) vs) (size_of E t * N.of_nat (length vs)))
    (fun fs a vs => (forall o t, In (o, t) fs -> wf_ty E t) -> word_each (owned_fields E vs fs) (lengths (spans fs))));
    unfold word_each.
  - intros l ok a n _ _ _. cbn [owned resolve length data_size]. lia.
  - intros t a p v _ _ _ _ IH Hw. inversion Hw; subst. specialize (IH ltac:(assumption)).
    cbn [owned resolve]. destruct (size_of E t =? 0) eqn:Hz; [cbn; lia|].
    change (size_of E (TBox t)) with pW. cbn [length data_size].
    change (l_size (layout_of E t)) with (size_of E t). lia.
  - intros vl t a c p vs _ _ _ _ _ _ IH Hw. inversion Hw; subst. specialize (IH ltac:(assumption)).
    cbn [owned resolve]. destruct ((size_of E t =? 0) || (N.of_nat (length vs) =? 0)) eqn:Hz; [cbn; lia|].
    change (size_of E (TVec vl t)) with (3 * pW). cbn [length data_size].
    change (l_size (layout_of E t)) with (size_of E t).
    set (x := size_of E t * N.of_nat (length vs)) in *. lia.
  - intros vl a c p bs _ _ _ _ _ _ _. cbn [owned resolve].
    destruct (N.of_nat (length bs) =? 0); [cbn; lia|]. change (size_of E (TString vl)) with (3 * pW).
    cbn [length data_size u8_layout l_size]. lia.
  - intros t n a vs -> _ IH Hw. inversion Hw; subst. cbn [owned resolve].
    change (size_of E (TArray t (N.of_nat (length vs)))) with (size_of E t * N.of_nat (length vs)). auto.
  - intros l fs a vs _ IH Hw. inversion Hw as [| | | | |? ? H1 H2 H3| |]; subst. rewrite owned_struct.
    pose proof (fields_sum l fs H2). specialize (IH H3). change (size_of E (TStruct l fs)) with (l_size l). lia.
  - intros l d vss a k fs vs _ Hk _ IH Hw. inversion Hw as [| | | | | |? ? ? H1 H2 H3 H4|]; subst.
    rewrite (owned_enum E l d vss k fs vs Hk).
    pose proof (fields_sum l fs (H3 k fs Hk)). specialize (IH (fun o t => H4 k fs o t Hk)).
    change (size_of E (TEnum l d vss)) with (l_size l). lia.
  - intros id d a v Hid _ IH Hw. rewrite (owned_named E HE id d v Hid).
    destruct (HE id d Hid) as [Hd Hs]. specialize (IH Hd).
    replace (size_of E (TNamed id)) with (size_of E d); [exact IH|].
    unfold size_of. cbn [layout_of]. rewrite Hid. destruct d; try contradiction; reflexivity.
  - intros t a _. cbn. lia.
  - intros t a v vs _ IH1 _ IH2 Hw. specialize (IH1 Hw). specialize (IH2 Hw). cbn [flat_map length].
    rewrite app_length, data_app. rewrite Nat2N.inj_succ. lia.
  - intros a _. cbn. lia.
  - intros off t fs a v vs _ IH1 _ IH2 Hw. specialize (IH1 (Hw off t (or_introl eq_refl))).
    specialize (IH2 (fun o u Hi => Hw o u (or_intror Hi))). cbn [owned_fields spans map lengths fst snd].
    rewrite app_length, data_app. unfold spans in IH2. lia.
Qed.

Hypothesis C : cfg_ok.

Lemma end_pos_data ps : Forall (fun x => good_layout (fst x)) ps -> forall p, p + data_size ps <= end_pos p ps.
Proof.
  pose proof (c_VA_pos C). induction 1 as [|[l n] ps Hl Hps IH]; intros p; [cbn; lia|].
  cbn [end_pos data_size]. specialize (IH (push_end p l n)). cbn [fst] in Hl.
  destruct Hl as (Ha & _). pose proof (pow2_pos _ Ha).
  pose proof (round_up_ge p (N.max (l_align l) VA) ltac:(lia)) as H1. fold (push_start p l) in H1.
  pose proof (round_up_ge (push_start p l + l_size l * n) VA ltac:(lia)) as H2. fold (push_end p l n) in H2.
  unfold push_end in *. set (y := l_size l * n) in *. lia.
Qed.

End E.
End Mem.

(** ** Theorems *)

(** Every pointer that has to be remembered occupies a word of the output: there are at most as many as
    words written. *)
Theorem C82_word_each {P : Params} : forall k E m (xs : list (ty * N * val)) w fuel ps z,
  cfg_ok -> alloc_ok -> wf_env E -> storage_ok w ->
  Forall (fun '(t, a, v) => valid_input E any_header m t a v /\ (vdepth v < fuel)%nat) xs ->
  serialize_all k E m fuel (map fst xs) (from_storage w) = Ok ps z ->
  N.of_nat (pointers E xs) * pW <= s_pos (sw_s (z_sw z)) - s_pos (sw_s w).
Proof.
  intros k E m xs w fuel ps z C HA HE Hw Hxs Hr.
  assert (Hxs' : Forall (fun '(t, a, v) => input_ok E m any_header fuel t a v) xs).
  { eapply Forall_impl; [|exact Hxs]. intros [[t a] v] ((A & B & D) & F). unfold input_ok. auto. }
  pose proof (serialize_all_spec C HA E HE k m any_header any_header (transfers_any k) fuel xs w Hw Hxs') as H.
  change (map it_in xs) with (map fst xs) in H. rewrite Hr in H. destruct H as (_ & Hp & _).
  set (al := all_allocations E (map it_tv xs)) in *.
  assert (Hgood : Forall (fun x => good_layout (fst x)) al).
  { subst al. unfold all_allocations. apply Forall_flat_map. apply Forall_map.
    eapply Forall_impl; [|exact Hxs]. intros [[t a] v] (Hx & _). cbn [it_tv fst snd].
    apply (allocations_good C); [exact HE|apply Hx]. }
  pose proof (end_pos_data C al Hgood (s_pos (sw_s w))) as Hd. rewrite <- Hp in Hd.
  assert (Hc : N.of_nat (pointers E xs) * pW <= data_size al); [|lia].
  subst al. clear - Hxs HE. induction xs as [|[[t a] v] xs IH]; [cbn; lia|].
  inversion Hxs as [|? ? K K3]; subst. destruct K as [(K1 & _ & K2) _]. specialize (IH K3).
  pose proof (proj1 (words E HE any_header m) t a v K2 K1) as Hv. unfold word_each in Hv.
  unfold all_allocations in *. cbn [map it_tv flat_map fst snd pointers]. rewrite data_app.
  assert (Ha : size_of E t + data_size (owned E t v) = data_size (allocations E t v)).
  { unfold allocations. destruct (size_of E t =? 0) eqn:Hz; cbn [app data_size]; [lia|].
    change (l_size (layout_of E t)) with (size_of E t). lia. }
  lia.
Qed.

Lemma sum_bytes_le {P : Params} gs :
  sum_bytes gs <= (2 * N.of_nat (length (flat_map pg_pos gs)) + 4 * N.of_nat (length gs)) * pW.
Proof.
  induction gs as [|g gs IH]; [cbn; lia|]. cbn [sum_bytes flat_map length]. rewrite app_length.
  unfold positions_bytes. pose proof (vec_cap_le2 (length (pg_pos g))).
  assert (vec_cap (length (pg_pos g)) * pW <= (2 * N.of_nat (length (pg_pos g)) + 4) * pW)
    by (apply N.mul_le_mono_r; assumption).
  lia.
Qed.

(** All the memory the record takes: at most twice the bytes written, and a constant. *)
Theorem C82_memory {P : Params} : forall E m (xs : list (ty * N * val)) w fuel ps z,
  cfg_ok -> alloc_ok -> wf_env E -> storage_ok w ->
  Forall (fun '(t, a, v) => valid_input E any_header m t a v /\ (vdepth v < fuel)%nat) xs ->
  serialize_all Complete E m fuel (map fst xs) (from_storage w) = Ok ps z ->
  record_bytes (z_ptrs z) <= 2 * (s_pos (sw_s (z_sw z)) - s_pos (sw_s w)) + (96 * pW * pW + 32 * pW).
Proof.
  intros E m xs w fuel ps z C HA HE Hw Hxs Hr.
  pose proof (C82_word_each Complete E m xs w fuel ps z C HA HE Hw Hxs Hr) as Hwd.
  destruct (C76_groups E m xs w fuel ps z C HA HE Hw Hxs Hr) as [_ Hg].
  assert (Hn : length (remembered (z_ptrs z)) = pointers E xs).
  { refine (C76_count Complete E m xs w fuel ps z HE _ Hr).
    eapply Forall_impl; [|exact Hxs]. intros [[t a] v] ((_ & _ & D) & F). auto. }
  unfold remembered in Hn. rewrite app_length in Hn. rewrite <- Hn in Hwd.
  unfold record_bytes. pose proof (sum_bytes_le (pt_past (z_ptrs z))) as Hs.
  unfold positions_bytes.
  pose proof (vec_cap_le2 (length (pg_pos (pt_current (z_ptrs z))))) as H1.
  pose proof (vec_cap_le2 (length (pt_past (z_ptrs z)))) as H2.
  set (c := N.of_nat (length (pg_pos (pt_current (z_ptrs z))))) in *.
  set (g := N.of_nat (length (pt_past (z_ptrs z)))) in *.
  set (b := length (flat_map pg_pos (pt_past (z_ptrs z)))) in *.
  rewrite Nat2N.inj_add in Hwd. fold c in Hwd.
  apply (N.mul_le_mono_r _ _ pW) in H1.
  assert (H3 : vec_cap (length (pt_past (z_ptrs z))) <= 16 * pW + 6) by lia.
  apply (N.mul_le_mono_r _ _ (4 * pW)) in H3.
  apply (N.mul_le_mono_r _ _ pW) in Hg.
  set (out := s_pos (sw_s (z_sw z)) - s_pos (sw_s w)) in *. lia.
Qed.

(** No push onto the record panics, if the output is at most half of isize::MAX. *)
Theorem C82_no_overflow {P : Params} : forall E m (xs : list (ty * N * val)) w fuel ps z,
  cfg_ok -> alloc_ok -> wf_env E -> storage_ok w ->
  Forall (fun '(t, a, v) => valid_input E any_header m t a v /\ (vdepth v < fuel)%nat) xs ->
  serialize_all Complete E m fuel (map fst xs) (from_storage w) = Ok ps z ->
  2 * (s_pos (sw_s (z_sw z)) - s_pos (sw_s w)) <= imax ->
  no_overflow (4 * pW) (length (pt_past (z_ptrs z))) /\
  forall g, g = pt_current (z_ptrs z) \/ In g (pt_past (z_ptrs z)) -> no_overflow pW (length (pg_pos g)).
Proof.
  intros E m xs w fuel ps z C HA HE Hw Hxs Hr Hhalf.
  pose proof (C82_word_each Complete E m xs w fuel ps z C HA HE Hw Hxs Hr) as Hwd.
  destruct (C76_groups E m xs w fuel ps z C HA HE Hw Hxs Hr) as [_ Hg].
  assert (Hn : length (remembered (z_ptrs z)) = pointers E xs).
  { refine (C76_count Complete E m xs w fuel ps z HE _ Hr).
    eapply Forall_impl; [|exact Hxs]. intros [[t a] v] ((_ & _ & D) & F). auto. }
  pose proof (imax_big (c_machine C)) as Hi. change (2 ^ 31 - 1) with 2147483647 in Hi.
  pose proof (pW_vals (c_machine C)) as HW.
  split.
  - intros j Hj. pose proof (vec_cap_le2 j) as H. assert (vec_cap j <= 200) by lia.
    assert (vec_cap j * (4 * pW) <= 200 * 32) by (apply N.mul_le_mono; lia). lia.
  - intros g Hin j Hj.
    assert (Hl : (length (pg_pos g) <= pointers E xs)%nat).
    { rewrite <- Hn. unfold remembered. rewrite app_length. destruct Hin as [->|Hin]; [lia|].
      clear - Hin. induction (pt_past (z_ptrs z)) as [|h gs IH]; [destruct Hin|]. cbn [flat_map]. rewrite app_length.
      destruct Hin as [->|Hin]; [lia|]. specialize (IH Hin). lia. }
    pose proof (vec_cap_le j) as H. apply (N.mul_le_mono_r _ _ pW) in H.
    assert (Hb : 2 * (N.of_nat j - 1) * pW <= 2 * (N.of_nat (pointers E xs) * pW)).
    { rewrite <- N.mul_assoc. apply N.mul_le_mono_l. apply N.mul_le_mono_r. lia. }
    destruct (N.max_spec 4 (2 * (N.of_nat j - 1))) as [[_ Hm]|[_ Hm]]; rewrite Hm in H; lia.
Qed.

(** The bound of C82_no_overflow is needed: a Vec<usize> of more than a quarter of isize::MAX + 1 words' worth of
    positions asks for more than isize::MAX bytes (32-bit: 2^28 pointers, an output of 2^30 bytes). *)
Lemma vec_cap_pow k : forall n, 2 ^ k * 4 < N.of_nat n -> 2 ^ (k + 1) * 4 <= vec_cap n.
Proof.
  intros n Hn.
  assert (Hj : forall j, (1 <= j)%nat -> exists i, vec_cap j = 2 ^ i * 4).
  { intros j Hj. induction Hj as [|j Hj [i IH]]; [exists 0; reflexivity|]. cbn [vec_cap].
    destruct (vec_cap j =? N.of_nat j) eqn:He; [|eauto]. exists (i + 1). rewrite (N.add_1_r i), N.pow_succ_r'.
    pose proof (N.pow_nonzero 2 i ltac:(lia)). lia. }
  destruct (Hj n) as [i Hi]; [lia|]. pose proof (vec_cap_ge n) as Hge. rewrite Hi in *.
  assert (2 ^ k < 2 ^ i) by lia. apply N.pow_lt_mono_r_iff in H; [|lia].
  apply N.mul_le_mono_r. apply N.pow_le_mono_r; lia.
Qed.
Theorem C82_overflow {P : Params} : forall n, cfg_ok -> imax + 1 < N.of_nat n * (2 * pW) -> ~ no_overflow pW n.
Proof.
  intros n C Hn Hno. specialize (Hno n (le_n n)).

  destruct (c_machine C) as [HW|HW].
  - assert (Hi : imax + 1 = 2 ^ 31) by (unfold imax, umod; rewrite HW; reflexivity).
    pose proof (vec_cap_pow 26 n) as H. rewrite HW in *. rewrite Hi in Hn.
    change (2 ^ 31) with 2147483648 in *. change (2 ^ 26 * 4) with 268435456 in H. change (2 ^ (26 + 1) * 4) with 536870912 in H. lia.
  - assert (Hi : imax + 1 = 2 ^ 63) by (unfold imax, umod; rewrite HW; reflexivity).
    pose proof (vec_cap_pow 57 n) as H. rewrite HW in *. rewrite Hi in Hn.
    change (2 ^ 63) with 9223372036854775808 in *. change (2 ^ 57 * 4) with 576460752303423488 in H.
    change (2 ^ (57 + 1) * 4) with 1152921504606846976 in H. lia.
Qed.

(** The three values of PropEncode: four pointers, 136 bytes of output. *)
Theorem C82_witness :
  @pointers demo no_env PropEncode.demo_items = 4%nat /\
  match @serialize_all demo Complete no_env demo_mem 10 (inputs PropEncode.demo_items) (from_storage demo_w) with
  | Ok _ z => (record_bytes (P := demo) (z_ptrs z), s_pos (sw_s (z_sw z)) - s_pos (sw_s demo_w)) = (224, 136)
  | _ => False
  end.
Proof. vm_compute. split; [reflexivity|]. reflexivity. Qed.
