(** * SerProps: the serializer properties in the form PropSerialize.v states them. *)
From Verif Require Import Base Types Storage Serializer Serialize Spec ArithFacts StorageFacts
  StorageHist Frame MemFacts TypeFacts SerFacts SerMain SerValue SerRoot Moves StorageProps.
From Coq Require Import ZifyBool ZifyNat ZifyN.
Local Open Scope N_scope.

(** ** More memory, same value *)
Section Mono.
Context {P : Params}.

Definition sub_mem (m m' : mem) : Prop := forall i b, m i = Some b -> m' i = Some b.

Lemma read_bytes_mono m m' : sub_mem m m' -> forall n a l,
  read_bytes m a n = Some l -> read_bytes m' a n = Some l.
Proof.
  intros Hs. induction n as [|n IH]; intros a l Hr; [exact Hr|]. cbn [read_bytes] in *.
  destruct (m a) as [b|] eqn:Eb; [|discriminate]. rewrite (Hs _ _ Eb).
  destruct (read_bytes m (a + 1) n) as [bs|] eqn:Ebs; [|discriminate].
  rewrite (IH _ _ Ebs). exact Hr.
Qed.

Lemma read_int_mono m m' a sz x : sub_mem m m' -> read_int m a sz = Some x -> read_int m' a sz = Some x.
Proof.
  intros Hs. unfold read_int. destruct (read_bytes m a (N.to_nat sz)) as [l|] eqn:El; [|discriminate].
  rewrite (read_bytes_mono _ _ Hs _ _ _ El). auto.
Qed.

Lemma read_discr_mono m m' a d k : sub_mem m m' -> read_discr m a d = Some k -> read_discr m' a d = Some k.
Proof.
  intros Hs. destruct d; cbn; auto.
  all: destruct (read_int m (a + off) sz) as [x|] eqn:Ex; [|discriminate];
    rewrite (read_int_mono _ _ _ _ _ Hs Ex); auto.
Qed.

Scheme repr_m := Minimality for repr Sort Prop
  with repr_elems_m := Minimality for repr_elems Sort Prop
  with repr_fields_m := Minimality for repr_fields Sort Prop.
Combined Scheme repr_mut from repr_m, repr_elems_m, repr_fields_m.

Lemma repr_mono_all E H m m' : sub_mem m m' ->
  (forall t a v, repr E H m t a v -> repr E H m' t a v) /\
  (forall t a vs, repr_elems E H m t a vs -> repr_elems E H m' t a vs) /\
  (forall fs a vs, repr_fields E H m fs a vs -> repr_fields E H m' fs a vs).
Proof.
  intros Hs.
  apply (repr_mut P E H m (fun t a v => repr E H m' t a v) (fun t a vs => repr_elems E H m' t a vs)
           (fun fs a vs => repr_fields E H m' fs a vs)); intros.
  - constructor; auto. eapply read_int_mono; eauto.
  - econstructor; eauto. eapply read_int_mono; eauto.
  - econstructor; eauto; eapply read_int_mono; eauto.
  - econstructor; eauto; try (eapply read_int_mono; eauto). eapply read_bytes_mono; eauto.
  - constructor; auto.
  - constructor; auto.
  - econstructor; eauto. eapply read_discr_mono; eauto.
  - econstructor; eauto.
  - constructor.
  - constructor; auto.
  - constructor.
  - constructor; auto.
Qed.

Lemma repr_mono E H m m' t a v : sub_mem m m' -> repr E H m t a v -> repr E H m' t a v.
Proof. intros Hs. apply (repr_mono_all E H m m' Hs). Qed.

(** Weaker conditions on the headers. *)
Lemma repr_header E (H H' : header) m :
  (forall q l c p n, H q l c p n -> H' q l c p n) ->
  forall t a v, repr E H m t a v -> repr E H' m t a v.
Proof.
  intros Hs. apply (repr_m P E H m (fun t a v => repr E H' m t a v) (fun t a vs => repr_elems E H' m t a vs)
    (fun fs a vs => repr_fields E H' m fs a vs)); intros; econstructor; eauto.
Qed.

(** The memory determines the value: "represents exactly the value" is meaningful. *)
Lemma repr_unique_all E H m :
  (forall t a v, repr E H m t a v -> forall v', repr E H m t a v' -> v = v') /\
  (forall t a vs, repr_elems E H m t a vs ->
     forall vs', repr_elems E H m t a vs' -> length vs = length vs' -> vs = vs') /\
  (forall fs a vs, repr_fields E H m fs a vs -> forall vs', repr_fields E H m fs a vs' -> vs = vs').
Proof.
  apply (repr_mut P E H m); intros;
    match goal with
    | X : repr _ _ _ _ _ ?v' |- _ = ?v' => inversion X; subst
    | X : repr_elems _ _ _ _ _ ?v' |- _ = ?v' => inversion X; subst
    | X : repr_fields _ _ _ _ _ ?v' |- _ = ?v' => inversion X; subst
    end; try discriminate; try congruence.
  - replace p0 with p in * by congruence. f_equal; auto.
  - replace p0 with p in * by congruence. f_equal. apply H6; auto.
    match goal with A : read_word m (_ + len_off vl) = _, B : read_word m (_ + len_off vl) = _ |- _ =>
      rewrite A in B; inversion B end. lia.
  - replace p0 with p in * by congruence.
    match goal with A : read_word m (_ + len_off vl) = _, B : read_word m (_ + len_off vl) = _ |- _ =>
      rewrite A in B; inversion B end.
    assert (length bs = length bs0) as Hl by lia. rewrite Hl in *. congruence.
  - f_equal. apply H2; auto. lia.
  - f_equal. auto.
  - replace k0 with k in * by congruence. replace fs0 with fs in * by congruence. f_equal. auto.
  - replace d0 with d in * by congruence. auto.
  - f_equal; auto.
  - f_equal; auto.
Qed.

Lemma repr_unique E H m t a v v' : repr E H m t a v -> repr E H m t a v' -> v = v'.
Proof. intros A B. exact (proj1 (repr_unique_all E H m) t a v A v' B). Qed.

Lemma out_mem_sub base w M :
  (forall i, i < s_pos (sw_s w) -> M (base + i) = s_buf (sw_s w) i) -> sub_mem (out_mem base w) M.
Proof.
  intros HM i b. unfold out_mem.
  destruct (N.leb_spec base i); cbn [andb]; [|discriminate].
  destruct (N.ltb_spec i (base + s_pos (sw_s w))); [|discriminate].
  intros Hb. rewrite <- Hb, <- HM by lia. f_equal. lia.
Qed.

(** ** transfers *)
Lemma transfers_any k : transfers k any_header any_header.
Proof. unfold transfers, any_header. auto. Qed.

Lemma transfers_forward k : transfers k any_header forward.
Proof.
  unfold transfers, any_header, forward. ands; intros; auto; lia.
Qed.

Lemma transfers_tight : transfers Complete canonical tight.
Proof.
  unfold transfers, canonical, tight. ands.
  - intros q q' l c p n Hc [E|[-> E]] Hs; [lia|]. specialize (E eq_refl). auto.
  - intros q q' l c p n p' _ Hn _ _ _. split; [reflexivity|lia].
  - intros _ q' l Hs _. auto.
Qed.

End Mono.

Section SerProps.
Context {P : Params}.
Notation cap w := (s_cap (sw_s w)).
Notation pos w := (s_pos (sw_s w)).
Notation ptr w := (s_ptr (sw_s w)).
Notation buf w := (s_buf (sw_s w)).
Notation zpos z := (s_pos (sw_s (z_sw z))).
Notation zbuf z := (s_buf (sw_s (z_sw z))).
Notation zcap z := (s_cap (sw_s (z_sw z))).
Notation zptr z := (s_ptr (sw_s (z_sw z))).

Section Cfg.
Hypothesis C : cfg_ok.
Hypothesis HA : alloc_ok.

Ltac cfg :=
  pose proof (c_SA_pos C); pose proof (c_MVA_pos C); pose proof (c_VA_pos C);
  pose proof (c_VA_MVA C); pose proof (c_MVA_SA C); pose proof (c_MAXC C);
  pose proof (c_MVA_le_MAXC C); pose proof (c_sum C); pose proof (c_umod C);
  pose proof (c_SA_lt_imax C); pose proof (pW_vals (c_machine C)).

Section Values.
Variable E : tenv.
Hypothesis HE : wf_env E.
Variable k : kind.
Variable m : mem.
Variables Hin Hout : header.
Hypothesis T : transfers k Hin Hout.

Lemma serialize_as_all fuel t a z :
  serialize_all k E m fuel [(t, a)] z =
  match serialize k E m fuel t a z with
  | Ok p z' => Ok [p] z'
  | Panic e z' => Panic e z'
  | Abort => Abort | UB => UB | OutOfFuel => OutOfFuel
  end.
Proof.
  unfold serialize_all, serialize, serialize_values, bind, ret.
  destruct (serialize_value k E m fuel t a z) as [p z1|e z1| | |]; auto.
  destruct (finalize k z1); auto.
Qed.

Lemma serialize_spec fuel t a v w :
  storage_ok w -> input_ok E m Hin fuel t a v ->
  match serialize k E m fuel t a (from_storage w) with
  | Ok p z' =>
      let w' := z_sw z' in
      p = root_pos E (pos w) t /\
      pos w' = end_pos (pos w) (allocations E t v) /\
      pos w' <= MAXC /\ storage_ok w' /\ extends w w' /\
      (forall i, i < pos w -> buf w' i = buf w i) /\
      (pos w' <= cap w -> ptr w' = ptr w /\ cap w' = cap w /\
         sw_calls w' = sw_calls w /\ sw_trace w' = sw_trace w) /\
      root_final E k Hout w' t v p
  | Panic e z' =>
      let w' := z_sw z' in
      e = PCapacity /\ MAXC < end_pos (pos w) (allocations E t v) /\
      storage_ok w' /\ extends w w' /\ pos w <= pos w' /\
      (forall i, i < pos w -> buf w' i = buf w i)
  | Abort => alloc_failed
  | UB | OutOfFuel => False
  end.
Proof.
  intros Hok Hi.
  pose proof (serialize_all_spec C HA E HE k m Hin Hout T fuel [(t, a, v)] w Hok
                ltac:(constructor; [exact Hi|constructor])) as H.
  cbn [map it_in fst] in H. rewrite serialize_as_all in H.
  destruct (serialize k E m fuel t a (from_storage w)) as [p z'|e z'| | |]; auto.
  - destruct H as (A & B & D & F & G & I & J & K).
    cbn [map it_tv fst snd root_positions] in A, B. inversion A; subst; clear A.
    unfold all_allocations in B, J; cbn [map it_tv flat_map fst snd] in B, J. rewrite app_nil_r in B, J.
    cbn zeta. split; [reflexivity|]. split; [exact B|]. split; [exact D|]. split; [exact F|].
    split; [exact G|]. split; [exact I|]. split.
    + rewrite B. exact (fpushes_fit C _ _ _ J).
    + inversion K; subst. auto.
  - destruct H as (A & B & _ & D & F & G & I).
    unfold all_allocations in B; cbn [map it_tv flat_map fst snd] in B. rewrite app_nil_r in B.
    cbn zeta. ands; auto.
  - apply H.
Qed.

End Values.

(** ** Size bound *)
Lemma end_pos_bound ps : Forall (fun x => good_layout (fst x)) ps -> forall p,
  end_pos p ps <= p + data_size ps + N.of_nat (length ps) * ((MVA - 1) + (VA - 1)).
Proof.
  cfg. induction 1 as [|[l n] ps Hl Hps IH]; intros p.
  - cbn [end_pos data_size length]. lia.
  - cbn [end_pos data_size length]. specialize (IH (push_end p l n)).
    destruct Hl as (Ha & _ & _ & Hm). cbn [fst] in *. pose proof (pow2_pos _ Ha).
    assert (Hs : push_start p l < p + N.max (l_align l) VA) by (apply round_up_lt; lia).
    assert (He : push_end p l n < push_start p l + l_size l * n + VA) by (apply round_up_lt; lia).
    set (x := l_size l * n) in *. set (d := data_size ps) in *.
    rewrite Nnat.Nat2N.inj_succ.
    set (kk := N.of_nat (length ps)) in *. 
    rewrite N.mul_succ_l. lia.
Qed.

(** ** Frames *)
Definition touches {A} (q n : N) (f : M zs A) : Prop := forall z x z', f z = Ok x z' ->
  z_map z' = z_map z /\ zpos z' = zpos z /\ zcap z' = zcap z /\ zptr z' = zptr z /\
  forall i, i < q \/ q + n <= i -> zbuf z' i = zbuf z i.

Lemma touches_refl_state {A} q n (f : M zs A) : (forall z x z', f z = Ok x z' -> z' = z) -> touches q n f.
Proof. intros Hf z x z' Hr. rewrite (Hf z x z' Hr). ands; auto. Qed.

Lemma touches_bind {A B} q n (f : M zs A) (g : A -> M zs B) :
  touches q n f -> (forall x, touches q n (g x)) -> touches q n (bind f g).
Proof.
  intros Hf Hg z y z' Hr. unfold bind in Hr.
  destruct (f z) as [x z1|? ?| | |] eqn:Ef; try discriminate.
  destruct (Hf _ _ _ Ef) as (A1 & A2 & A3 & A4 & A5).
  destruct (Hg x _ _ _ Hr) as (B1 & B2 & B3 & B4 & B5).
  ands; try congruence. intros i Hi. rewrite B5, A5; auto.
Qed.

Lemma pure_add q n a b : touches q n (add_u a b).
Proof.
  apply touches_refl_state. intros z x z'. unfold add_u, ret, panics.
  destruct (_ <? _); [|destruct dbg]; intros Hr; inversion Hr; auto.
Qed.
Lemma pure_sub q n a b : touches q n (sub_u a b).
Proof.
  apply touches_refl_state. intros z x z'. unfold sub_u, ret, panics.
  destruct (_ <=? _); [|destruct dbg]; intros Hr; inversion Hr; auto.
Qed.
Lemma pure_ret {A} q n (x : A) : touches q n (ret x).
Proof. apply touches_refl_state. unfold ret. intros z y z' Hr; inversion Hr; auto. Qed.
Lemma pure_panics {A} q n e : touches q n (@panics zs A e).
Proof. intros z x z' Hr. discriminate. Qed.
Lemma pure_dassert q n c : touches q n c -> touches q n (dassert c).
Proof.
  intros Hc. unfold dassert. destruct dbg; [|apply pure_ret].
  apply touches_bind; auto. intros []; [apply pure_ret|apply pure_panics].
Qed.
Lemma pure_al q n a b : touches q n (is_aligned_to a b).
Proof.
  unfold is_aligned_to. apply touches_bind; [apply pure_dassert, pure_ret|intros _].
  apply touches_bind; [apply pure_sub|intros x; apply pure_ret].
Qed.
Lemma pure_gets {A} q n (f : zs -> A) : touches q n (gets f).
Proof. apply touches_refl_state. unfold gets. intros z y z' Hr; inversion Hr; auto. Qed.
Lemma pure_lift_gets {A} q n (f : sw -> A) : touches q n (lift (gets f)).
Proof.
  apply touches_refl_state. unfold lift, gets. intros z y z' Hr; inversion Hr; subst.
  destruct z; reflexivity.
Qed.
Lemma touches_set_ptrs q n p : touches q n (set_ptrs p).
Proof. unfold set_ptrs, modify. intros z x z' Hr. inversion Hr. ands; auto. Qed.

Lemma lift_dassert (c : M sw bool) z x z' :
  (forall w b w', c w = Ok b w' -> w' = w) ->
  lift (dassert c) z = Ok x z' -> z' = z.
Proof.
  intros Hc. unfold lift, dassert, bind, ret, panics. destruct dbg.
  - destruct (c (z_sw z)) as [[] w1|? ?| | |] eqn:Ec; intros Hr; try discriminate.
    inversion Hr. rewrite (Hc _ _ _ Ec). destruct z; reflexivity.
  - intros Hr; inversion Hr. destruct z; reflexivity.
Qed.

Lemma dassert_same (c : M sw bool) w x w' :
  (forall w b w', c w = Ok b w' -> w' = w) -> dassert c w = Ok x w' -> w' = w.
Proof.
  intros Hc. unfold dassert, bind, ret, panics. destruct dbg.
  - destruct (c w) as [[] w1|? ?| | |] eqn:Ec; intros Hr; try discriminate.
    inversion Hr; subst. exact (Hc _ _ _ Ec).
  - intros Hr; inversion Hr; auto.
Qed.

Lemma write_slice_frame p l n d w x w' :
  write_slice p l n d w = Ok x w' ->
  pos w' = pos w /\ cap w' = cap w /\ ptr w' = ptr w /\
  forall i, i < p \/ p + l_size l * n <= i -> buf w' i = buf w i.
Proof.
  unfold write_slice. intros Hr. rewrite (bind_ok get_cap _ w (cap w) w eq_refl) in Hr.
  assert (H1 : forall wa b wb, @ret sw bool (p <=? cap w) wa = Ok b wb -> wb = wa)
    by (unfold ret; intros; congruence).
  assert (H2 : forall wa b wb,
     (d0 <- sub_u (cap w) p ;; sz <- mul_u (l_size l) n ;; ret (sz <=? d0)) wa = @Ok sw bool b wb -> wb = wa).
  { intros wa b wb. unfold bind, sub_u, mul_u, ret, panics.
    repeat match goal with |- context[if ?b then _ else _] => destruct b end; intros He; congruence. }
  assert (H3 : forall wa b wb, is_aligned_to p (l_align l) wa = @Ok sw bool b wb -> wb = wa).
  { intros wa b wb. unfold is_aligned_to, bind, dassert, sub_u, ret, panics, bind.
    repeat match goal with |- context[if ?b then _ else _] => destruct b end; intros He; congruence. }
  unfold bind at 1 in Hr.
  destruct (dassert _ w) as [? w1|? ?| | |] eqn:E1 in Hr; try discriminate.
  apply (dassert_same _ _ _ _ H1) in E1. subst w1.
  unfold bind at 1 in Hr.
  destruct (dassert _ w) as [? w1|? ?| | |] eqn:E2 in Hr; try discriminate.
  apply (dassert_same _ _ _ _ H2) in E2. subst w1.
  unfold bind at 1 in Hr.
  destruct (dassert _ w) as [? w1|? ?| | |] eqn:E3 in Hr; try discriminate.
  apply (dassert_same _ _ _ _ H3) in E3. subst w1.
  destruct (N.eqb_spec (l_size l) 0) as [E0|E0].
  - unfold ret in Hr. inversion Hr; subst. ands; auto.
  - destruct (_ && _); [|discriminate]. unfold put_buf, modify in Hr. inversion Hr; subst.
    cbn. ands; auto. intros i Hi. unfold blit.
    destruct (N.leb_spec p i), (N.ltb_spec i (p + l_size l * n)); try lia; reflexivity.
Qed.

Lemma touches_write q l d : touches q (l_size l) (lift (write q l d)).
Proof.
  intros z x z' Hr. unfold lift, write in Hr.
  destruct (write_slice q l 1 d (z_sw z)) as [u w'|? ?| | |] eqn:Ew; try discriminate.
  inversion Hr; subst; cbn. destruct (write_slice_frame _ _ _ _ _ _ _ Ew) as (A & B & D & F).
  ands; auto. intros i Hi. apply F. lia.
Qed.

Lemma touches_overwrite_ptr k q t : touches q pW (overwrite_ptr k q t).
Proof.
  assert (Hpre : forall g : M zs unit, touches q pW g ->
    touches q pW
      (dassert (c <- ser_capacity ;; d <- sub_u c pW ;; ret (q <=? d)) ;;;
       dassert (is_aligned_to q pW) ;;;
       dassert (c <- ser_capacity ;; ret (t <=? c)) ;;; g)).
  { intros g Hg. apply touches_bind; [|intros _].
    - apply pure_dassert. apply touches_bind; [apply pure_lift_gets|intros c].
      apply touches_bind; [apply pure_sub|intros d; apply pure_ret].
    - apply touches_bind; [apply pure_dassert, pure_al|intros _].
      apply touches_bind; [|intros _; exact Hg].
      apply pure_dassert. apply touches_bind; [apply pure_lift_gets|intros c; apply pure_ret]. }
  destruct k; cbn [overwrite_ptr]; try (intros z x z' Hr; discriminate).
  - apply Hpre. apply (touches_write q usize_layout).
  - unfold co_overwrite_ptr. apply Hpre.
    apply touches_bind; [apply pure_lift_gets|intros sa].
    apply touches_bind; [apply pure_add|intros ta].
    apply touches_bind; [apply (touches_write q usize_layout)|intros _].
    apply touches_bind; [apply pure_gets|intros pt; cbv zeta; apply touches_set_ptrs].
Qed.

(** ** Position tracking *)
Lemma pos_for_ok {S} (s : S) pm n :
  pm_in pm <= n -> n - pm_in pm + pm_out pm < umod ->
  pos_for_addr pm (ATrack n) s = Ok (n - pm_in pm + pm_out pm) s.
Proof.
  intros H1 H2. unfold pos_for_addr, addr_n. cbn.
  unfold bind, ret. rewrite sub_u_ok by exact H1. apply add_u_ok. exact H2.
Qed.

Definition addr_inside (k : kind) (z : zs) (a : addr) : Prop :=
  tracking k = true ->
  exists n, a = ATrack n /\ pm_in (z_map z) <= n /\
    n - pm_in (z_map z) + pm_out (z_map z) + pW <= zpos z.

Lemma tracking_restored k s a process z p z' :
  k <> PureCopy ->
  storage_ok (z_sw z) -> good_layout (sl_lay s) -> l_size (sl_lay s) * sl_len s <= imax ->
  addr_inside k z a ->
  push_and_process_slice k s a process z = Ok p z' ->
  z_map z' = z_map z /\
  exists z1 z2, process z1 = Ok tt z2 /\
    forall i, i < l_size (sl_lay s) * sl_len s ->
      pos_for_addr (z_map z1) (ATrack (sl_addr s + i)) z1 = Ok (p + i) z1 /\
      zbuf z1 (p + i) = sl_data s i.
Proof.
  intros Hk Hok Hl Hn Ha Hr. cfg.
  destruct s as [l sa len data]. cbn [sl_lay sl_addr sl_len sl_data] in *.
  assert (Hmap : forall w pm pt i p1, pm = mkMap sa p1 -> p1 + i < umod ->
     pos_for_addr pm (ATrack (sa + i)) (mkZ w pm pt) = Ok (p1 + i) (mkZ w pm pt)).
  { intros w pm pt i p1 -> Hlt. rewrite pos_for_ok; cbn [pm_in pm_out]; [f_equal; lia|lia|lia]. }
  unfold push_and_process_slice, pt_push_and_process_slice, pw_push_and_process_slice in Hr.
  cbn [sl_lay sl_addr sl_len sl_data] in Hr.
  destruct k; [contradiction| | |].
  - unfold bind, get_map, gets, lift, set_map, modify, ret in Hr.
    destruct (push_slice l len data (z_sw z)) as [p1 w1|? ?| | |] eqn:Ep; try discriminate.
    cbn [z_sw z_map z_ptrs] in Hr.
    destruct (process (mkZ w1 (mkMap sa p1) (z_ptrs z))) as [[] z2|? ?| | |] eqn:Epr; try discriminate.
    inversion Hr; subst; clear Hr. cbn [z_map]. split; [reflexivity|].
    eexists; exists z2. split; [exact Epr|]. intros i Hi. cbn [z_map z_sw].
    pose proof (proj1 (push_pushed C HA (z_sw z) l len data Hok Hl Hn) _ _ Ep) as Hp.
    unfold pushed in Hp. destruct (N.eqb_spec (l_size l) 0) as [E0|E0]; [rewrite E0 in Hi; lia|].
    destruct Hp as (_ & _ & L & _ & D & Hok').
    destruct L as (_ & L & _). pose proof (ok_pos_le w1 Hok'). pose proof (ok_cap_le w1 Hok').
    split; [apply Hmap; auto; lia|apply D; exact Hi].
  - unfold addr_inside in Ha. destruct (Ha eq_refl) as (n & -> & Hn1 & Hn2).
    unfold bind at 1, get_map, gets in Hr.
    unfold bind at 1, lift in Hr.
    destruct (push_slice l len data (z_sw z)) as [p1 w1|? ?| | |] eqn:Ep; try discriminate.
    pose proof (ok_pos_le (z_sw z) Hok). pose proof (ok_cap_le (z_sw z) Hok).
    rewrite (bind_ok _ _ _ _ _ (pos_for_ok _ (z_map z) n Hn1 ltac:(lia))) in Hr.
    unfold bind at 1 in Hr.
    destruct (overwrite_ptr PtrOffset _ p1 _) as [[] z1|? ?| | |] eqn:Eo; try discriminate.
    apply touches_overwrite_ptr in Eo. cbn [z_map z_sw] in Eo. destruct Eo as (O1 & O2 & O3 & O4 & O5).
    unfold bind, set_map, modify, ret in Hr.
    destruct (process (mkZ (z_sw z1) (mkMap sa p1) (z_ptrs z1))) as [[] z2|? ?| | |] eqn:Epr; try discriminate.
    inversion Hr; subst; clear Hr. cbn [z_map]. split; [reflexivity|].
    eexists; exists z2. split; [exact Epr|]. intros i Hi. cbn [z_map z_sw].
    pose proof (proj1 (push_pushed C HA (z_sw z) l len data Hok Hl Hn) _ _ Ep) as Hp.
    unfold pushed in Hp. destruct (N.eqb_spec (l_size l) 0) as [E0|E0]; [rewrite E0 in Hi; lia|].
    destruct Hp as (_ & L0 & L & _ & D & Hok').
    destruct L as (_ & L & _). pose proof (ok_pos_le w1 Hok'). pose proof (ok_cap_le w1 Hok').
    split; [apply Hmap; auto; lia|]. rewrite O5; [apply D; exact Hi|].
    destruct L0 as (_ & L0 & _). lia.
  - unfold addr_inside in Ha. destruct (Ha eq_refl) as (n & -> & Hn1 & Hn2).
    unfold bind at 1, get_map, gets in Hr.
    unfold bind at 1, lift in Hr.
    destruct (push_slice l len data (z_sw z)) as [p1 w1|? ?| | |] eqn:Ep; try discriminate.
    pose proof (ok_pos_le (z_sw z) Hok). pose proof (ok_cap_le (z_sw z) Hok).
    rewrite (bind_ok _ _ _ _ _ (pos_for_ok _ (z_map z) n Hn1 ltac:(lia))) in Hr.
    unfold bind at 1 in Hr.
    destruct (overwrite_ptr Complete _ p1 _) as [[] z1|? ?| | |] eqn:Eo; try discriminate.
    apply touches_overwrite_ptr in Eo. cbn [z_map z_sw] in Eo. destruct Eo as (O1 & O2 & O3 & O4 & O5).
    unfold bind, set_map, modify, ret in Hr.
    destruct (process (mkZ (z_sw z1) (mkMap sa p1) (z_ptrs z1))) as [[] z2|? ?| | |] eqn:Epr; try discriminate.
    inversion Hr; subst; clear Hr. cbn [z_map]. split; [reflexivity|].
    eexists; exists z2. split; [exact Epr|]. intros i Hi. cbn [z_map z_sw].
    pose proof (proj1 (push_pushed C HA (z_sw z) l len data Hok Hl Hn) _ _ Ep) as Hp.
    unfold pushed in Hp. destruct (N.eqb_spec (l_size l) 0) as [E0|E0]; [rewrite E0 in Hi; lia|].
    destruct Hp as (_ & L0 & L & _ & D & Hok').
    destruct L as (_ & L & _). pose proof (ok_pos_le w1 Hok'). pose proof (ok_cap_le w1 Hok').
    split; [apply Hmap; auto; lia|]. rewrite O5; [apply D; exact Hi|].
    destruct L0 as (_ & L0 & _). lia.
Qed.

End Cfg.
End SerProps.
