(** * Corner: overwriting empty Vecs, unusual uses of the safe API, and the
    positions returned. *)
From Verif Require Import Base Types Storage Serializer Serialize Spec ArithFacts StorageFacts
  StorageHist MemFacts TypeFacts SerFacts SerMain SerValue SerRoot Moves StorageProps SerProps.
From Coq Require Import ZifyBool ZifyNat ZifyN.
Local Open Scope N_scope.

Section Corner.
Context {P : Params}.
Notation cap w := (s_cap (sw_s w)).
Notation pos w := (s_pos (sw_s w)).
Notation ptr w := (s_ptr (sw_s w)).
Notation buf w := (s_buf (sw_s w)).
Notation zpos z := (s_pos (sw_s (z_sw z))).
Notation zbuf z := (s_buf (sw_s (z_sw z))).
Notation zcap z := (s_cap (sw_s (z_sw z))).
Notation zptr z := (s_ptr (sw_s (z_sw z))).

Section Cfg.
Hypothesis C : cfg_ok.
Hypothesis HA : alloc_ok.

Ltac cfg :=
  pose proof (c_SA_pos C); pose proof (c_MVA_pos C); pose proof (c_VA_pos C);
  pose proof (c_VA_MVA C); pose proof (c_MVA_SA C); pose proof (c_MAXC C);
  pose proof (c_MVA_le_MAXC C); pose proof (c_sum C); pose proof (c_umod C);
  pose proof (c_SA_lt_imax C); pose proof (pW_vals (c_machine C)).

(** ** Overwriting the words of an empty Vec or String (C32) *)

(** Only the bytes of the output change, by [b']. *)
Definition same_but_buf (z z' : zs) : Prop :=
  z_map z' = z_map z /\ z_ptrs z' = z_ptrs z /\ zpos z' = zpos z /\ zcap z' = zcap z /\
  zptr z' = zptr z /\ sw_calls (z_sw z') = sw_calls (z_sw z) /\ sw_trace (z_sw z') = sw_trace (z_sw z) /\
  storage_ok (z_sw z').

Lemma same_but_buf_trans z1 z2 z3 : same_but_buf z1 z2 -> same_but_buf z2 z3 -> same_but_buf z1 z3.
Proof.
  unfold same_but_buf.
  intros (A1 & A2 & A3 & A4 & A5 & A6 & A7 & A8) (B1 & B2 & B3 & B4 & B5 & B6 & B7 & B8).
  ands; auto; congruence.
Qed.

Lemma overwrite_exact z n l data :
  let q := n - pm_in (z_map z) + pm_out (z_map z) in
  storage_ok (z_sw z) -> good_layout l -> pm_in (z_map z) <= n -> (l_align l | q) ->
  q + l_size l <= zpos z -> 0 < l_size l ->
  exists z', overwrite Complete (ATrack n) l data z = Ok tt z' /\ same_but_buf z z' /\
    (forall i, q <= i -> i < q + l_size l -> zbuf z' i = data (i - q)) /\
    (forall i, i < q \/ q + l_size l <= i -> zbuf z' i = zbuf z i).
Proof.
  intros q Hok Hl Hin Hal Hq Hsz. cfg.
  pose proof (ok_pos_le _ Hok). pose proof (ok_cap_le _ Hok).
  destruct (write_exact C (z_sw z) q l 1 data Hok Hl Hal ltac:(lia) ltac:(lia))
    as (w' & E & A & B & D & F & G & I & J & K).
  exists (mkZ w' (z_map z) (z_ptrs z)). ands.
  - cbn [overwrite]. unfold do_overwrite.
    rewrite (bind_ok get_map _ z (z_map z) z eq_refl).
    rewrite (bind_ok _ _ _ _ _ (pos_for_ok z (z_map z) n Hin ltac:(fold q; lia))).
    fold q. apply lift_eq. exact E.
  - unfold same_but_buf; cbn. ands; auto.
  - intros i H1' H2'. apply J; lia.
  - intros i Hi. apply K. lia.
Qed.

Lemma word_exact z n x :
  let q := n - pm_in (z_map z) + pm_out (z_map z) in
  storage_ok (z_sw z) -> pW <= MVA -> pm_in (z_map z) <= n -> (pW | q) -> q + pW <= zpos z -> x < umod ->
  exists z', overwrite Complete (ATrack n) usize_layout (word_src x) z = Ok tt z' /\ same_but_buf z z' /\
    read_word (zbuf z') q = Some x /\
    (forall i, i < q \/ q + pW <= i -> zbuf z' i = zbuf z i).
Proof.
  intros q Hok Hm Hin Hal Hq Hx. cfg.
  destruct (overwrite_exact z n usize_layout (word_src x)) as (z' & A & B & D & F); auto.
  - apply usize_good; auto.
  - cbn [l_size usize_layout]. lia.
  - exists z'. ands; auto. apply read_word_src; auto. intros i Hi. fold q in D.
    rewrite D; cbn [l_size usize_layout]; try lia. f_equal. lia.
Qed.

Lemma two_words_good : pW <= MVA -> good_layout two_words_layout.
Proof.
  intros Hm. destruct (usize_good C Hm) as (A & B & D & F). cfg.
  unfold good_layout, two_words_layout; cbn [l_size l_align]. ands; auto.
  - exists 2. lia.
  - pose proof (imax_big (c_machine C)). lia.
Qed.

Lemma two_words_exact z n x y :
  let q := n - pm_in (z_map z) + pm_out (z_map z) in
  storage_ok (z_sw z) -> pW <= MVA -> pm_in (z_map z) <= n -> (pW | q) -> q + 2 * pW <= zpos z ->
  x < umod -> y < umod ->
  exists z', overwrite Complete (ATrack n) two_words_layout (two_words x y) z = Ok tt z' /\ same_but_buf z z' /\
    read_word (zbuf z') q = Some x /\ read_word (zbuf z') (q + pW) = Some y /\
    (forall i, i < q \/ q + 2 * pW <= i -> zbuf z' i = zbuf z i).
Proof.
  intros q Hok Hm Hin Hal Hq Hx Hy. cfg.
  destruct (overwrite_exact z n two_words_layout (two_words x y)) as (z' & A & B & D & F); auto.
  - apply two_words_good; auto.
  - cbn [l_size two_words_layout]. lia.
  - fold q in D. exists z'. ands; auto.
    + apply read_word_src; auto. intros i Hi.
      rewrite D; cbn [l_size two_words_layout]; try lia.
      replace (q + i - q) with i by lia. apply two_words_lo_hi. exact Hi.
    + apply read_word_src; auto. intros i Hi.
      rewrite D; cbn [l_size two_words_layout]; try lia.
      replace (q + pW + i - q) with (pW + i) by lia. apply two_words_lo_hi. exact Hi.
Qed.

Lemma overwrite_empty_exact z vl d a vo :
  let q := a - pm_in (z_map z) + pm_out (z_map z) in
  vec_offsets vl d = Some vo -> d <> 0 -> d < umod ->
  storage_ok (z_sw z) -> pW <= MVA -> pm_in (z_map z) <= a -> (pW | q) -> q + 3 * pW <= zpos z ->
  a + 3 * pW <= umod ->
  exists z', overwrite_empty Complete vo d a z = Ok tt z' /\ same_but_buf z z' /\
    read_word (zbuf z') (q + cap_off vl) = Some 0 /\
    read_word (zbuf z') (q + ptr_off vl) = Some d /\
    (forall i, (i < q + cap_off vl \/ q + cap_off vl + pW <= i) ->
               (i < q + ptr_off vl \/ q + ptr_off vl + pW <= i) -> zbuf z' i = zbuf z i).
Proof.
  intros q Hvo Hd0 Hd Hok Hm Hin Hal Hq Ha. cfg.
  rewrite vec_offsets_ok in Hvo by exact Hd0. inversion Hvo; subst vo; clear Hvo.
  destruct (vl_offs vl ltac:(lia)) as (V1 & V2 & V3 & V4 & V5 & V6 & V7 & V8 & V9).
  unfold overwrite_empty. cbn [vo_cap vo_ptr].
  unfold addr_from_ref, addr_from_ref_offset. cbn [tracking].
  assert (Hshift : forall o, a + o - pm_in (z_map z) + pm_out (z_map z) = q + o) by (unfold q; lia).
  assert (Hp0 : (pW | q + pW)) by (apply N.divide_add_r; auto; apply N.divide_refl).
  assert (Hu0 : 0 < umod) by lia.
  destruct vl; unfold cap_off, ptr_off, len_off in *; cbn [cap_ix ptr_ix len_ix] in *.
  - (* CPL *)
    replace ((0 * pW =? 0) && (1 * pW =? pW)) with true by lia.
    rewrite (bind_ok (ret (ATrack a)) _ z (ATrack a) z eq_refl).
    destruct (two_words_exact z a 0 d) as (z' & A & B & D & F & G); auto; try (fold q; lia).
    fold q in D, F, G. exists z'. rewrite !N.mul_0_l, !N.mul_1_l, !N.add_0_r. ands; auto.
    intros i Hi1 Hi2. apply G. lia.
  - (* CLP *)
    replace ((0 * pW =? 0) && (2 * pW =? pW)) with false by lia.
    replace ((0 * pW =? pW) && (2 * pW =? 0)) with false by lia.
    replace ((0 * pW =? pW) && (2 * pW =? pW * 2)) with false by lia.
    replace ((0 * pW =? pW * 2) && (2 * pW =? pW)) with false by lia.
    rewrite add_u_bind by lia.
    destruct (word_exact z (a + 0 * pW) 0) as (z1 & A & B & D & F); auto; rewrite ?Hshift; try lia; auto.
    { rewrite N.mul_0_l, N.add_0_r; auto. }
    rewrite Hshift in D, F.
    rewrite (bind_ok _ _ _ _ _ A). rewrite add_u_bind by lia.
    destruct B as (B1 & B2 & B3 & B4 & B5 & B6 & B7 & B8).
    destruct (word_exact z1 (a + 2 * pW) d) as (z2 & A' & B' & D' & F'); auto; rewrite ?B1, ?Hshift; try lia; auto.
    { apply N.divide_add_r; auto. }
    rewrite B1, Hshift in D', F'.
    exists z2. ands; auto.
    + eapply same_but_buf_trans; [|exact B']. unfold same_but_buf; ands; auto.
    + rewrite <- D. apply read_word_ext. intros i Hi. apply F'. lia.
    + intros i Hi1 Hi2. rewrite F', F; auto.
  - (* PCL *)
    replace ((1 * pW =? 0) && (0 * pW =? pW)) with false by lia.
    replace ((1 * pW =? pW) && (0 * pW =? 0)) with true by lia.
    rewrite (bind_ok (ret (ATrack a)) _ z (ATrack a) z eq_refl).
    destruct (two_words_exact z a d 0) as (z' & A & B & D & F & G); auto; try (fold q; lia).
    fold q in D, F, G. exists z'. rewrite !N.mul_0_l, !N.mul_1_l, !N.add_0_r. ands; auto.
    intros i Hi1 Hi2. apply G. lia.
  - (* PLC *)
    replace ((2 * pW =? 0) && (0 * pW =? pW)) with false by lia.
    replace ((2 * pW =? pW) && (0 * pW =? 0)) with false by lia.
    replace ((2 * pW =? pW) && (0 * pW =? pW * 2)) with false by lia.
    replace ((2 * pW =? pW * 2) && (0 * pW =? pW)) with false by lia.
    rewrite add_u_bind by lia.
    destruct (word_exact z (a + 2 * pW) 0) as (z1 & A & B & D & F); auto; rewrite ?Hshift; try lia; auto.
    { apply N.divide_add_r; auto. }
    rewrite Hshift in D, F.
    rewrite (bind_ok _ _ _ _ _ A). rewrite add_u_bind by lia.
    destruct B as (B1 & B2 & B3 & B4 & B5 & B6 & B7 & B8).
    destruct (word_exact z1 (a + 0 * pW) d) as (z2 & A' & B' & D' & F'); auto; rewrite ?B1, ?Hshift; try lia; auto.
    { rewrite N.mul_0_l, N.add_0_r; auto. }
    rewrite B1, Hshift in D', F'.
    exists z2. ands; auto.
    + eapply same_but_buf_trans; [|exact B']. unfold same_but_buf; ands; auto.
    + rewrite <- D. apply read_word_ext. intros i Hi. apply F'. lia.
    + intros i Hi1 Hi2. rewrite F', F; auto.
  - (* LCP *)
    replace ((1 * pW =? 0) && (2 * pW =? pW)) with false by lia.
    replace ((1 * pW =? pW) && (2 * pW =? 0)) with false by lia.
    replace ((1 * pW =? pW) && (2 * pW =? pW * 2)) with true by lia.
    rewrite add_u_bind by lia.
    destruct (two_words_exact z (a + pW) 0 d) as (z' & A & B & D & F & G); auto; rewrite ?Hshift; try lia; auto.
    rewrite Hshift in D, F, G. exists z'. rewrite !N.mul_1_l.
    replace (q + 2 * pW) with (q + pW + pW) by lia. ands; auto.
    intros i Hi1 Hi2. apply G. lia.
  - (* LPC *)
    replace ((2 * pW =? 0) && (1 * pW =? pW)) with false by lia.
    replace ((2 * pW =? pW) && (1 * pW =? 0)) with false by lia.
    replace ((2 * pW =? pW) && (1 * pW =? pW * 2)) with false by lia.
    replace ((2 * pW =? pW * 2) && (1 * pW =? pW)) with true by lia.
    rewrite add_u_bind by lia.
    destruct (two_words_exact z (a + pW) d 0) as (z' & A & B & D & F & G); auto; rewrite ?Hshift; try lia; auto.
    rewrite Hshift in D, F, G. exists z'. rewrite !N.mul_1_l.
    replace (q + 2 * pW) with (q + pW + pW) by lia. ands; auto.
    intros i Hi1 Hi2. apply G. lia.
Qed.

(** ** The position returned (C41) *)
Lemma returned_ref E t w p :
  wf_env E -> wf_ty E t -> storage_ok w -> (align_of E t | p) -> p + size_of E t <= pos w ->
  (0 < cap w \/ align_of E t = 1) -> valid_ref (layout_of E t) 1 (ptr w + p).
Proof.
  intros HE Hw Hok Hal Hp Hc. cfg.
  pose proof (wf_good C E HE t Hw) as (Ha & _ & Hsz & Hm).
  pose proof (ok_pos_le _ Hok). pose proof (ok_cap_le _ Hok).
  unfold valid_ref, size_of, align_of in *.
  destruct (N.eq_dec (cap w) 0) as [E0|E0].
  - assert (E1 : ptr w = 1) by (apply Hok; auto). destruct Hc as [|Hc]; [lia|]. rewrite Hc.
    ands; [lia|apply N.divide_1_l|]. lia.
  - assert (Hx : ptr w <> 0 /\ (SA | ptr w) /\ ptr w + cap w < umod) by (apply Hok; lia).
    destruct Hx as (X1 & X2 & X3). ands; [lia| |lia].
    apply N.divide_add_r; auto. eapply divide_trans; [|exact X2].
    apply pow2_divide; auto; [apply c_SA; auto|]. lia.
Qed.

End Cfg.
End Corner.
