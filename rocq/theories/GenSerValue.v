(** * GenSerValue: a value of any supported type, over any storage (as SerValue.v). *)
From Verif Require Import Base Types Storage Serializer Serialize Spec ArithFacts StorageFacts MemFacts TypeFacts
  SerFacts SerMain SerValue StorageHist GenStorage GenSpec GenFacts GenSerializer GenSerSpec GenSerFacts GenSerMain.
From Coq Require Import ZifyBool ZifyNat ZifyN.
Local Open Scope N_scope.

Section GenSerValue.
Context {P : Params}.
Context {St : Type}.
Variable R : ra_impl St.
Hypothesis C : cfg_ok.
Variable inv : St -> Prop.
Variable contents : St -> mem.
Variable empties : bool.
Hypothesis K : keeps_contract (r_st R) inv contents empties.
Hypothesis KP : reserve_keeps_pos (r_st R) inv.
Context {UP : Prop}.
Variable E : tenv.
Hypothesis HE : wf_env E.

Ltac cfg :=
  pose proof (c_SA_pos C); pose proof (c_MVA_pos C); pose proof (c_VA_pos C);
  pose proof (c_VA_MVA C); pose proof (c_MVA_SA C); pose proof (c_MAXC C);
  pose proof (c_MVA_le_MAXC C); pose proof (c_sum C); pose proof (c_umod C);
  pose proof (c_SA_lt_imax C); pose proof (pW_vals (c_machine C)).

Notation gpos z := (i_pos (r_st R) (gz_st z)).
Notation gbuf z := (contents (gz_st z)).
Notation gdone := (GenSerFacts.gdone R inv contents (UP := UP)).
Notation gat := (GenSerFacts.gat R inv contents).

Variable k : kind.
Variable m : mem.
Variables Hin Hout : header.
Hypothesis T : transfers k Hin Hout.
Hypothesis HS : storage_for k R inv contents.

Lemma g_cap_piece vl l a p c n z G :
  gat k z G (seg (p + cap_off vl) pW) m p a ->
  read_word m (a + cap_off vl) = Some c -> good_layout l ->
  n < umod -> pW <= MVA -> (pW | p) -> a + 3 * pW <= umod ->
  gdone k z G (seg (p + cap_off vl) pW) []
    (fun B M => (tracking k = true -> read_word M (B + (p + cap_off vl)) = Some (out_cap k c n)) /\
                (tracking k = false -> copied m a p (seg (p + cap_off vl) pW) B M))
    (g_overwrite_with k (
       cap <- load_word m (a + cap_off vl) ;;
       if negb (cap =? n) then
         (vo <- const_or (vec_offsets vl (l_align l)) ;;
          cap_addr <- addr_from_ref_offset k a (vo_cap vo) ;;
          g_overwrite R k cap_addr usize_layout (word_src n))
       else ret tt) z).
Proof.
  intros Hr Hc Hl Hn Hmv Hal Ha. cfg.
  destruct (vl_offs vl ltac:(lia)) as (V1 & V2 & V3 & V4 & V5 & V6 & V7 & V8 & V9).
  assert (Hkeep : (tracking k = true -> out_cap k c n = c) ->
     gdone k z G (seg (p + cap_off vl) pW) []
    (fun B M => (tracking k = true -> read_word M (B + (p + cap_off vl)) = Some (out_cap k c n)) /\
                (tracking k = false -> copied m a p (seg (p + cap_off vl) pW) B M)) (ret tt z)).
  { intros Heq. eapply (gdone_ret R inv contents empties K); [exact Hr|]. intros B M Hcp. split.
    - intros Hk. rewrite (Heq Hk). eapply word_copied; eassumption.
    - intros _. exact Hcp. }
  destruct k; cbn [g_overwrite_with]; try (apply Hkeep; cbn; auto; discriminate).
  erewrite bind_ok by (unfold load_word; rewrite Hc; reflexivity).
  destruct (N.eqb_spec c n) as [->|Hne]; cbn [negb].
  - apply Hkeep. reflexivity.
  - rewrite (vec_offsets_ok vl (l_align l)).
    2:{ pose proof (pow2_pos _ (proj1 Hl)). lia. }
    erewrite bind_ok by reflexivity. cbn [vo_cap]. unfold addr_from_ref_offset; cbn [tracking].
    rewrite g_add_u_bind by lia.
    eapply gdone_eqF; [reflexivity| |apply (g_usize_word_done R C inv contents empties K (proj1 HS) z G m (a + cap_off vl) (p + cap_off vl) n)]; auto.
    + intros B M _ HR. split; [intros _; apply read_word_src; [exact Hn|exact HR]|discriminate].
    + apply gat_shift; [exact Hr|]. intros i; unfold seg; lia.
    + apply N.divide_add_r; auto.
Qed.

Lemma g_header_nonempty vl l c tp n a p (push : N -> addr -> M (gz St) N) (process : N -> M (gz St) unit) psc (Rc : N -> mem -> Prop) z G :
  let st := push_start (gpos z) l in
  gat k z G (seg p (3 * pW)) m p a ->
  read_word m (a + cap_off vl) = Some c ->
  read_word m (a + ptr_off vl) = Some tp ->
  read_word m (a + len_off vl) = Some n ->
  vec_ok l c tp n -> Hin (a + ptr_off vl) l c tp n ->
  good_layout l -> 0 < l_size l -> 0 < n -> pW <= MVA -> (pW | p) -> a + 3 * pW <= umod ->
  (forall tp' ad z', push tp' ad z' = g_push_and_process_slice R k (slice_at m l tp' n) ad (process tp') z') ->
  (forall z1 G1, gpos z1 = push_end (gpos z) l n ->
     gat k z1 G1 (seg st (l_size l * n)) m st tp ->
     gdone k z1 G1 (seg st (l_size l * n)) psc Rc (process tp z1)) ->
  gdone k z G (seg p (3 * pW)) ((l, n) :: psc)
    (fun B M =>
       (tracking k = true ->
          read_word M (B + (p + cap_off vl)) = Some (out_cap k c n) /\
          read_word M (B + (p + ptr_off vl)) = Some (B + st) /\
          vec_ok l (out_cap k c n) (B + st) n /\ Hout (B + (p + ptr_off vl)) l (out_cap k c n) (B + st) n) /\
       (tracking k = false -> copied m a p (seg p (3 * pW)) B M) /\
       read_word M (B + (p + len_off vl)) = Some n /\ Rc B M)
    ((g_overwrite_with k (
        cap <- load_word m (a + cap_off vl) ;;
        if negb (cap =? n) then
          (vo <- const_or (vec_offsets vl (l_align l)) ;;
           cap_addr <- addr_from_ref_offset k a (vo_cap vo) ;;
           g_overwrite R k cap_addr usize_layout (word_src n))
        else ret tt) ;;;
      vo <- const_or (vec_offsets vl (l_align l)) ;;
      ptr_addr <- addr_from_ref_offset k a (vo_ptr vo) ;;
      tp' <- load_word m (a + ptr_off vl) ;;
      push tp' ptr_addr ;;;
      ret tt) z).
Proof.
  intros st Hr Hc Hp Hn Hvec Hh Hl Hsz Hpos Hmv Hal Ha Hpush Hproc. cfg.
  destruct (vl_offs vl ltac:(lia)) as (V1 & V2 & V3 & V4 & V5 & V6 & V7 & V8 & V9).
  destruct Hvec as (W1 & W2 & W3 & W4).
  destruct (N.eqb_spec (l_size l) 0) as [|_]; [lia|].
  assert (Hnc : l_size l * n <= l_size l * c) by (apply N.mul_le_mono_l; exact W3).
  assert (Hnu : n < umod).
  { assert (1 * n <= l_size l * n) by (apply N.mul_le_mono_r; lia). lia. }
  assert (Hr3 : gat k z G (fun i => (seg (p + cap_off vl) pW i \/ seg (p + ptr_off vl) pW i)
                                      \/ seg (p + len_off vl) pW i) m p a).
  { eapply gat_eqF; [|exact Hr]. intros i. symmetry. apply words_split. lia. }
  unfold disjoint in *.
  eapply gdone_eqF; [intros i; symmetry; apply words_split; lia| |].
  2:{ eapply (gdone_frame C R inv contents empties K); [exact Hr3| |].
      { intros i; unfold seg. lia. }
      change ((l, n) :: psc) with ([] ++ (l, n) :: psc).
      eapply (gdone_seq C) with (m := m) (p := p) (a := a).
      - eapply gat_sub; [exact Hr3|]. intros i; cbv beta; tauto.
      - intros i; unfold seg; lia.
      - apply (g_cap_piece vl l a p c n); auto.
        eapply gat_sub; [exact Hr3|]. intros i; cbv beta; tauto.
      - intros x z1 G1 _ Hr1 Hmap1 Hpos1. cbn [end_pos] in Hpos1.
        rewrite (vec_offsets_ok vl (l_align l)).
        2:{ pose proof (pow2_pos _ (proj1 Hl)). lia. }
        erewrite bind_ok by reflexivity. cbn [vo_ptr].
        erewrite bind_ok with (a := addr_of k (a + ptr_off vl)) (s' := z1).
        2:{ unfold addr_from_ref_offset, addr_of. destruct (tracking k); [|reflexivity].
            unfold bind. rewrite add_u_ok by lia. reflexivity. }
        erewrite bind_ok by (unfold load_word; rewrite Hp; reflexivity).
        apply gdone_void. rewrite Hpush.
        pose proof (g_alloc_done (UP := UP) R C inv contents empties K KP k z1 (G ++ G1) m l n (a + ptr_off vl) (p + ptr_off vl) tp (process tp) psc Rc) as HD.
        cbv zeta in HD. rewrite Hpos1 in HD. fold st in HD. apply HD; auto.
        + apply gat_shift; [exact Hr1|]. intros i; unfold seg; lia.
        + lia.
        + apply N.divide_add_r; auto.
}
  cbv beta. intros B M HB [((R1 & R2) & (R3 & R4 & R5)) R6]. rewrite ?Hpos1 in *.
  assert (Hzz : True) by trivial.
  split; [|split; [|split]].
  - intros Hk. destruct (R3 Hk) as [R31 R32].
    assert (R31' : read_word M (B + (p + ptr_off vl)) = Some (B + st)).
    { apply read_word_src; [|exact R31]. destruct R32 as (_ & _ & R32).
      assert (0 < l_size l * n) by nia. lia. }
    clear R31. ands; auto.
    + unfold vec_ok. ands; auto; unfold out_cap; destruct k; auto; try lia.
      * destruct (N.eqb_spec (l_size l) 0); lia.
      * destruct (N.eqb_spec (l_size l) 0); lia.
      * destruct (N.eqb_spec (l_size l) 0); lia.
      * destruct (N.eqb_spec (l_size l) 0); lia.
    + unfold out_cap. eapply T; eauto.
      assert (Hlast : seg p (3 * pW) (p + 3 * pW - 1)) by (unfold seg; lia).
      destruct Hr as (_ & Hcp & _). destruct (Hcp _ Hlast) as (_ & Hlt & _).
      pose proof (push_start_ge C (gpos z) l (proj1 Hl)) as Hge. fold st in Hge. lia.
  - intros Hk i Hi. apply (words_split vl) in Hi; [|lia].
    destruct Hi as [[Hi|Hi]|Hi].
    + apply R2; auto.
    + rewrite (R4 Hk i Hi). f_equal. unfold seg in Hi. lia.
    + apply R6; auto.
  - eapply word_copied; eassumption.
  - exact R5.
Qed.

Lemma g_header_empty vl l c tp a p z G :
  gat k z G (seg p (3 * pW)) m p a ->
  read_word m (a + cap_off vl) = Some c ->
  read_word m (a + ptr_off vl) = Some tp ->
  read_word m (a + len_off vl) = Some 0 ->
  vec_ok l c tp 0 -> Hin (a + ptr_off vl) l c tp 0 ->
  good_layout l -> 0 < l_size l -> pW <= MVA -> (pW | p) -> a + 3 * pW <= umod ->
  gdone k z G (seg p (3 * pW)) []
    (fun B M =>
       (tracking k = true -> exists c' p',
          read_word M (B + (p + cap_off vl)) = Some c' /\
          read_word M (B + (p + ptr_off vl)) = Some p' /\
          vec_ok l c' p' 0 /\ Hout (B + (p + ptr_off vl)) l c' p' 0) /\
       (tracking k = false -> copied m a p (seg p (3 * pW)) B M) /\
       read_word M (B + (p + len_off vl)) = Some 0)
    (g_overwrite_with k (
        cap <- load_word m (a + cap_off vl) ;;
        if negb (cap =? 0) then
          (vo <- const_or (vec_offsets vl (l_align l)) ;;
           g_overwrite_empty R k vo (l_align l) a)
        else ret tt) z).
Proof.
  intros Hr Hc Hp Hn Hvec Hh Hl Hsz Hmv Hal Ha. cfg.
  destruct (vl_offs vl ltac:(lia)) as (V1 & V2 & V3 & V4 & V5 & V6 & V7 & V8 & V9).
  pose proof (pow2_pos _ (proj1 Hl)) as Hlp.
  assert (Hkeep : (k = Complete -> c = 0) ->
    gdone k z G (seg p (3 * pW)) []
    (fun B M =>
       (tracking k = true -> exists c' p',
          read_word M (B + (p + cap_off vl)) = Some c' /\
          read_word M (B + (p + ptr_off vl)) = Some p' /\
          vec_ok l c' p' 0 /\ Hout (B + (p + ptr_off vl)) l c' p' 0) /\
       (tracking k = false -> copied m a p (seg p (3 * pW)) B M) /\
       read_word M (B + (p + len_off vl)) = Some 0) (ret tt z)).
  { intros Hcc. eapply (gdone_ret R inv contents empties K); [exact Hr|]. intros B M Hcp.
    assert (Hw : forall off x, off + pW <= 3 * pW -> read_word m (a + off) = Some x ->
                   read_word M (B + (p + off)) = Some x).
    { intros off x Ho Hx. eapply word_copied; [|exact Hx]. intros i Hi. apply Hcp. unfold seg in *. lia. }
    split; [|split].
    - intros _. exists c, tp. ands; auto. eapply T; eauto.
    - intros _. exact Hcp.
    - apply Hw; auto. }
  destruct k; cbn [g_overwrite_with]; try (apply Hkeep; discriminate).
  erewrite bind_ok by (unfold load_word; rewrite Hc; reflexivity).
  destruct (N.eqb_spec c 0) as [->|Hne]; cbn [negb].
  - apply Hkeep; reflexivity.
  - rewrite (vec_offsets_ok vl (l_align l)) by lia.
    erewrite bind_ok by reflexivity.
    assert (Hr3 : gat Complete z G (fun i => (seg (p + cap_off vl) pW i \/ seg (p + ptr_off vl) pW i)
                                        \/ seg (p + len_off vl) pW i) m p a).
    { eapply gat_eqF; [|exact Hr]. intros i. symmetry. apply words_split. lia. }
    unfold disjoint in *.
    assert (l_align l <= MVA) by apply Hl.
    eapply gdone_eqF; [intros i; symmetry; apply words_split; lia| |].
    2:{ eapply (gdone_frame C R inv contents empties K); [exact Hr3| |].
        { intros i; unfold seg. lia. }
        apply (g_overwrite_empty_done R C inv contents empties K (proj1 HS) z G m vl (l_align l) a p); auto; try lia.
        eapply gat_sub; [exact Hr3|]. intros i; cbv beta; tauto. }
    cbv beta. intros B M HB [[R1 R2] R3].
    apply read_word_src in R1; [|lia]. apply read_word_src in R2; [|lia]. split; [|split].
    + intros _. exists 0, (l_align l). ands; auto.
      * unfold vec_ok, valid_ref. ands; try lia.
        apply N.divide_refl.
      * apply T; auto.
    + discriminate.
    + eapply word_copied; eassumption.
Qed.

Lemma g_fields_region l fs p a vs z G fuel :
  fields_ok E l fs ->
  gat k z G (seg p (l_size l)) m p a ->
  (gat k z G (in_fields E fs p) m p a ->
   gdone k z G (in_fields E fs p) (owned_fields E vs fs) (FS E k m Hout fs p a (gpos z) vs)
     (g_for_fields fs a (g_ser_data R k E m fuel) z)) ->
  gdone k z G (seg p (l_size l)) (owned_fields E vs fs)
    (fun B M => FS E k m Hout fs p a (gpos z) vs B M /\
                copied m a p (fun i => seg p (l_size l) i /\ ~ in_fields E fs p i) B M)
    (g_for_fields fs a (g_ser_data R k E m fuel) z).
Proof.
  intros Hf Hr Hd.
  assert (Hr2 : gat k z G (fun i => in_fields E fs p i \/ (seg p (l_size l) i /\ ~ in_fields E fs p i)) m p a).
  { eapply gat_eqF; [|exact Hr]. intros i. split.
    - intros [H1|H1]; [eapply fields_inside; eassumption|tauto].
    - intros H1. destruct (in_fields_dec E fs p i); auto. }
  eapply gdone_eqF.
  3:{ eapply (gdone_frame C R inv contents empties K); [exact Hr2| |].
      - intros i H1 [_ H2]. auto.
      - apply Hd. eapply gat_sub; [exact Hr2|]. intros i; cbv beta; auto. }
  - intros i. split.
    + intros [H1|H1]; [eapply fields_inside; eassumption|tauto].
    + intros H1. destruct (in_fields_dec E fs p i); auto.
  - intros B M _ HR. exact HR.
Qed.

Theorem g_value_done t a v :
  repr E Hin m t a v -> wf_ty E t ->
  forall fuel z G p, (vdepth v < fuel)%nat ->
    gat k z G (seg p (size_of E t)) m p a -> (align_of E t | p) -> a + size_of E t <= umod ->
    gdone k z G (seg p (size_of E t)) (owned E t v) (VS E k m Hout t p a (gpos z) v) (g_ser_data R k E m fuel t a z).
Proof.
  intros HR. revert t a v HR. pose proof (pW_vals (c_machine C)) as HpW.
  apply (repr_mind P E Hin m
    (fun t a v _ => wf_ty E t ->
       forall fuel z G p, (vdepth v < fuel)%nat ->
       gat k z G (seg p (size_of E t)) m p a -> (align_of E t | p) -> a + size_of E t <= umod ->
       gdone k z G (seg p (size_of E t)) (owned E t v) (VS E k m Hout t p a (gpos z) v) (g_ser_data R k E m fuel t a z))
    (fun t a vs _ => wf_ty E t ->
       forall fuel z G p, (list_max (map vdepth vs) < fuel)%nat ->
       gat k z G (seg p (size_of E t * N.of_nat (length vs))) m p a -> (align_of E t | p) ->
       a + size_of E t * N.of_nat (length vs) <= umod ->
       gdone k z G (seg p (size_of E t * N.of_nat (length vs))) (flat_map (owned E t) vs)
         (ES E k m Hout t p a (gpos z) vs)
         (g_for_elems (length vs) a (size_of E t) (g_ser_data R k E m fuel t) z))
    (fun fs a vs _ => forall l, good_layout l -> fields_ok E l fs -> (forall o t, In (o, t) fs -> wf_ty E t) ->
       forall fuel z G p, (list_max (map vdepth vs) < fuel)%nat ->
       gat k z G (in_fields E fs p) m p a -> (l_align l | p) -> a + l_size l <= umod ->
       gdone k z G (in_fields E fs p) (owned_fields E vs fs) (FS E k m Hout fs p a (gpos z) vs)
         (g_for_fields fs a (g_ser_data R k E m fuel) z))).
  - (* prim *)
    intros l ok a n Hr Hok Hw [|fuel] z G p Hf Hrd Hal Ha; [lia|].
    cbn [g_ser_data resolve owned]. eapply (gdone_ret R inv contents empties K); [exact Hrd|]. unfold size_of; cbn [layout_of].
    intros B M Hcp. unfold VS.
    assert (Hri : forall x, x = B + p -> read_int M x (l_size l) = Some n).
    { intros x ->. rewrite <- Hr. apply read_int_ext. intros i Hi.
      rewrite <- N.add_assoc, Hcp by (unfold seg; lia). f_equal. lia. }
    split; [|split].
    + intros _. constructor; auto.
    + intros _. exact Hcp.
    + intros M' HM [|f] Hf'; [lia|]. cbn [decode resolve owned end_pos]. rewrite (read_int_at M' M B HM), Hri by lia. rewrite Hok. reflexivity.
  - (* box *)
    intros t a tp v Hp Hv Hh Hrep IH Hw [|fuel] z G p Hf Hrd Hal Ha; [lia|].
    inversion Hw as [|? Hwt Hmv| | | | | |]; subst.
    unfold size_of in Hrd, Ha; cbn [layout_of usize_layout l_size] in Hrd, Ha.
    unfold align_of in Hal; cbn [layout_of usize_layout l_align] in Hal.
    cbn [g_ser_data resolve]. unfold g_ser_box. cbn [owned resolve].
    change (size_of E (TBox t)) with pW.
    destruct (N.eqb_spec (size_of E t) 0) as [Hz|Hnz].
    + eapply (gdone_ret R inv contents empties K); [exact Hrd|]. intros B M Hcp. split; [|split].
      * intros _. econstructor; [|exact Hv| |].
        -- rewrite <- Hp. apply read_word_ext. intros i Hi. rewrite <- N.add_assoc, Hcp by (unfold seg; lia). f_equal; lia.
        -- eapply T; eauto.
        -- eapply zst_repr; eauto.
      * intros _. exact Hcp.
      * intros M' HM [|f] Hf'; [lia|]. cbn [decode resolve owned]. rewrite Hz. cbn.
        rewrite (proj2 (zst_value C E HE _ _ _ _ _ Hrep Hwt Hz)); [reflexivity|]. cbn in Hf'; lia.
    + set (l := layout_of E t) in *. set (st := push_start (gpos z) l).
      pose proof (wf_good C E HE t Hwt) as Hg. fold l in Hg.
      erewrite bind_ok with (a := addr_of k a) (s' := z)
        by (unfold addr_from_ref, addr_of; destruct (tracking k); reflexivity).
      erewrite bind_ok by (unfold load_word; rewrite Hp; reflexivity).
      apply gdone_void.
      assert (Hsz : 0 < l_size l) by (unfold size_of in Hnz; fold l in Hnz; lia).
      eapply gdone_eqF; [reflexivity| |
        apply (g_alloc_done (UP := UP) R C inv contents empties K KP k z G m l 1 a p tp (g_ser_data R k E m fuel t tp) (owned E t v)
                 (VS E k m Hout t st tp (push_end (gpos z) l 1) v))]; auto; try lia.
      * cbv beta zeta. fold st. intros B M HB (R1 & R2 & R3 & R4 & R5). split; [|split].
        -- intros Hk. destruct (R1 Hk) as [R11' R12].
           assert (R11 : read_word M (B + p) = Some (B + st)).
           { apply read_word_src; [|exact R11']. destruct R12 as (_ & _ & R12'). lia. }
           econstructor; [exact R11|exact R12| |apply R3; exact Hk].
           assert (Hb : Hout (B + p) l (match k with Complete => 1 | _ => 1 end) (B + st) 1).
           { eapply T; eauto; try lia.
             assert (Hlast : seg p pW (p + pW - 1)) by (unfold seg; lia).
             destruct Hrd as (_ & Hcp & _). destruct (Hcp _ Hlast) as (_ & Hlt & _).
             pose proof (push_start_ge C (gpos z) l (proj1 Hg)) as Hge. fold st in Hge. lia. }
           destruct k; exact Hb.
        -- exact R2.
        -- intros M' HM [|f] Hf'; [lia|]. cbn [decode resolve owned].
           destruct (N.eqb_spec (size_of E t) 0); [lia|]. fold l st.
           rewrite R5; auto. cbn in Hf'; lia.
      * rewrite N.mul_1_r. apply Hg.
      * intros z1 G1 Hz1 Hrd1. cbv zeta in *. fold st in Hrd1 |- *. rewrite N.mul_1_r in *. rewrite <- Hz1.
        apply IH; auto.
        -- cbn in Hf; lia.
        -- apply (push_start_align C), Hg.
        -- destruct Hv as (_ & _ & Hv). rewrite N.mul_1_r in Hv. exact Hv.
  - (* vec *)
    intros vl t a c tp vs Hc Hp Hn Hvec Hh Hel IH Hw [|fuel] z G p Hf Hrd Hal Ha; [lia|].
    inversion Hw as [| |? ? Hwt Hmv| | | | |]; subst.
    change (size_of E (TVec vl t)) with (3 * pW) in *. change (align_of E (TVec vl t)) with pW in *.
    set (l := layout_of E t) in *. set (n := N.of_nat (length vs)) in *.
    pose proof (wf_good C E HE t Hwt) as Hg. fold l in Hg.
    destruct (vl_offs vl ltac:(lia)) as (V1 & V2 & V3 & V4 & V5 & V6 & V7 & V8 & V9).
    cbn [g_ser_data resolve]. unfold g_ser_vec. cbn [owned resolve]. fold n l.
    change (size_of E t) with (l_size l) in *. change (align_of E t) with (l_align l) in *.
    cbn [vdepth] in Hf.
    destruct (N.eqb_spec (l_size l) 0) as [Hz|Hnz]; cbn [orb].
    + eapply (gdone_ret R inv contents empties K); [exact Hrd|]. intros B M Hcp.
      assert (Hw3 : forall off x, off + pW <= 3 * pW -> read_word m (a + off) = Some x ->
                   read_word M (B + p + off) = Some x).
      { intros off x Ho Hx. rewrite <- N.add_assoc. eapply word_copied; [|exact Hx].
        intros i Hi. apply Hcp. unfold seg in *. lia. }
      split; [|split].
      * intros _. econstructor; eauto.
        -- eapply T; eauto.
        -- eapply zst_elems; eauto.
      * intros _. exact Hcp.
      * intros M' HM [|f] Hf'; [lia|]. cbn [decode resolve owned]. fold l n.
        change (size_of E t) with (l_size l). rewrite Hz. cbn [N.eqb orb end_pos].
        rewrite (read_word_at M' M B HM), N.add_assoc, (Hw3 _ n) by auto.
        unfold n. rewrite Nat2N.id, (zst_value_elems C E HE _ _ _ _ _ Hel Hwt Hz); [reflexivity|].
        cbn [vdepth] in Hf'; lia.
    + erewrite bind_ok by (unfold load_word; rewrite Hn; reflexivity).
      destruct (N.eqb_spec n 0) as [Hn0|Hn0].
      * assert (vs = []) as -> by (destruct vs; [reflexivity|cbn in n; lia]).
        eapply gdone_eqF; [reflexivity| |apply (g_header_empty vl l c tp a p z G)]; auto; try lia.
        cbv beta. intros B M HB (R1 & R2 & R3). split; [|split].
        -- intros Hk. destruct (R1 Hk) as (c' & p' & Q1 & Q2 & Q3 & Q4).
           rewrite !N.add_assoc in *. econstructor; eauto. constructor.
        -- exact R2.
        -- intros M' HM [|f] Hf'; [lia|]. rewrite <- (read_word_at M' M B HM) in R3.
           cbn [decode resolve owned]. fold l. rewrite R3. change (size_of E t) with (l_size l).
           cbn [length N.of_nat]. rewrite !orb_true_r. reflexivity.
      * set (st := push_start (gpos z) l).
        assert (Hlen : N.to_nat n = length vs) by (unfold n; apply Nat2N.id).
        eapply gdone_eqF; [reflexivity| |
          apply (g_header_nonempty vl l c tp n a p
             (fun tp' ad => g_push_and_process_slice R k (slice_at m l tp' n) ad
                              (g_for_elems (N.to_nat n) tp' (l_size l) (g_ser_data R k E m fuel t)))
             (fun tp' => g_for_elems (N.to_nat n) tp' (l_size l) (g_ser_data R k E m fuel t))
             (flat_map (owned E t) vs) (ES E k m Hout t st tp (push_end (gpos z) l n) vs) z G)]; auto; try lia.
        -- cbv beta zeta. fold st. intros B M HB (R1 & R2 & R3 & R4 & R5 & R6). split; [|split].
           ++ intros Hk. destruct (R1 Hk) as (Q1 & Q2 & Q3 & Q4).
              rewrite !N.add_assoc in *. econstructor; eauto.
           ++ exact R2.
           ++ intros M' HM [|f] Hf'; [lia|]. rewrite <- (read_word_at M' M B HM) in R3.
              cbn [decode resolve owned]. fold l n. rewrite R3. change (size_of E t) with (l_size l).
              destruct (N.eqb_spec (l_size l) 0); [lia|]. destruct (N.eqb_spec n 0); [lia|]. cbn [orb].
              fold st. rewrite Hlen. change (l_size l) with (size_of E t). rewrite R6; auto.
              cbn [vdepth] in Hf'; lia.
        -- intros z1 G1 Hz1 Hrd1. cbv zeta in *. fold st in Hrd1 |- *. rewrite <- Hz1, Hlen.
           apply IH; auto.
           ++ lia.
           ++ apply (push_start_align C), Hg.
           ++ apply Hvec.
  - (* string *)
    intros vl a c tp bs Hc Hp Hn Hvec Hh Hel Hw [|fuel] z G p Hf Hrd Hal Ha; [lia|].
    inversion Hw as [| | |? Hmv| | | |]; subst.
    change (size_of E (TString vl)) with (3 * pW) in *. change (align_of E (TString vl)) with pW in *.
    set (n := N.of_nat (length bs)) in *.
    cbn [g_ser_data resolve]. unfold g_ser_string. cbn [owned resolve]. fold n.
    erewrite bind_ok by (unfold load_word; rewrite Hn; reflexivity).
    destruct (N.eqb_spec n 0) as [Hn0|Hn0].
    + assert (bs = []) as -> by (destruct bs; [reflexivity|cbn in n; lia]).
      eapply gdone_eqF; [reflexivity| |apply (g_header_empty vl u8_layout c tp a p z G)]; auto; try lia.
      * cbv beta. intros B M HB (R1 & R2 & R3). split; [|split].
        -- intros Hk. destruct (R1 Hk) as (c' & p' & Q1 & Q2 & Q3 & Q4).
           rewrite !N.add_assoc in *. econstructor; eauto.
        -- exact R2.
        -- intros M' HM [|f] Hf'; [lia|]. rewrite <- (read_word_at M' M B HM) in R3.
           cbn [decode resolve owned]. rewrite R3. reflexivity.
      * apply (u8_good C).
      * cbn; lia.
    + set (st := push_start (gpos z) u8_layout).
      assert (Hlen : N.to_nat n = length bs) by (unfold n; apply Nat2N.id).
      eapply gdone_eqF; [reflexivity| |
        apply (g_header_nonempty vl u8_layout c tp n a p
           (fun tp' ad => g_ser_push_slice R k (slice_at m u8_layout tp' n) ad)
           (fun _ => ret tt) [] (fun B M => forall i, i < n -> M (B + st + i) = m (tp + i)) z G)];
        auto; try lia.
      * cbv beta zeta. fold st. intros B M HB (R1 & R2 & R3 & R4).
        assert (Hb : forall x, x = B + st -> read_bytes M x (length bs) = Some bs).
        { intros x ->. rewrite <- Hel. apply read_bytes_ext. intros i Hi. apply R4. exact Hi. }
        split; [|split].
        -- intros Hk. destruct (R1 Hk) as (Q1 & Q2 & Q3 & Q4).
           rewrite !N.add_assoc in *. econstructor; eauto.
        -- exact R2.
        -- intros M' HM [|f] Hf'; [lia|]. rewrite <- (read_word_at M' M B HM) in R3.
           cbn [decode resolve owned]. fold n. rewrite R3.
           destruct (N.eqb_spec n 0); [lia|]. fold st. rewrite Hlen, (read_bytes_at M' M B HM), Hb by lia. reflexivity.
      * apply (u8_good C).
      * cbn; lia.
      * intros. apply g_ser_push_slice_eq.
      * intros z1 G1 Hz1 Hrd1. cbv zeta in *. fold st in Hrd1 |- *.
        eapply (gdone_ret R inv contents empties K); [exact Hrd1|]. intros B M Hcp i Hi.
        rewrite <- N.add_assoc, Hcp by (unfold seg; cbn [l_size u8_layout]; lia). f_equal. lia.
  - (* array *)
    intros t n a vs -> Hel IH Hw [|fuel] z G p Hf Hrd Hal Ha; [lia|].
    inversion Hw as [| | | |? ? Hwt Hle| | |]; subst.
    change (size_of E (TArray t (N.of_nat (length vs)))) with (size_of E t * N.of_nat (length vs)) in *.
    change (align_of E (TArray t (N.of_nat (length vs)))) with (align_of E t) in *.
    cbn [g_ser_data resolve owned]. rewrite Nat2N.id. cbn [vdepth] in Hf.
    eapply gdone_eqF; [reflexivity| |apply IH]; auto; try lia.
    intros B M HB (R1 & R2 & R3). split; [|split].
    + intros Hk. constructor; auto.
    + exact R2.
    + intros M' HM [|f] Hf'; [lia|]. cbn [decode resolve owned]. rewrite Nat2N.id, R3; auto.
      cbn [vdepth] in Hf'; lia.
  - (* struct *)
    intros l fs a vs Hfs IH Hw [|fuel] z G p Hf Hrd Hal Ha; [lia|].
    inversion Hw as [| | | | |? ? Hl Hfo Hall| |]; subst.
    change (size_of E (TStruct l fs)) with (l_size l) in *. change (align_of E (TStruct l fs)) with (l_align l) in *.
    cbn [g_ser_data resolve vdepth] in *. rewrite owned_struct.
    eapply gdone_eqF; [reflexivity| |apply g_fields_region; auto].
    2:{ intros Hrd1. apply (IH l); auto. lia. }
    intros B M HB ((R1 & R2 & R3) & R4). split; [|split].
    + intros Hk. constructor; auto.
    + intros Hk i Hi. destruct (in_fields_dec E fs p i); [apply R2; auto|apply R4; split; auto].
    + intros M' HM [|f] Hf'; [lia|]. rewrite owned_struct. cbn [decode resolve].
      rewrite R3; auto. cbn [vdepth] in Hf'; lia.
  - (* enum *)
    intros l d vss a kk fs vs Hd Hk Hfs IH Hw [|fuel] z G p Hf Hrd Hal Ha; [lia|].
    inversion Hw as [| | | | | |? ? ? Hl Hdo Hfo Hall|]; subst.
    change (size_of E (TEnum l d vss)) with (l_size l) in *. change (align_of E (TEnum l d vss)) with (l_align l) in *.
    cbn [g_ser_data resolve vdepth] in *. rewrite (owned_enum E l d vss kk fs vs Hk). rewrite Hd, Hk.
    specialize (Hfo kk fs Hk).
    eapply gdone_eqF; [reflexivity| |apply g_fields_region; auto].
    2:{ intros Hrd1. apply (IH l); auto; [|lia]. intros o t Ho. eapply Hall; eassumption. }
    intros B M HB ((R1 & R2 & R3) & R4).
    assert (Hdis : read_discr M (B + p) d = Some kk) by (eapply read_discr_out; eauto).
    split; [|split].
    + intros Hkk. econstructor; eauto.
    + intros Hkk i Hi. destruct (in_fields_dec E fs p i); [apply R2; auto|apply R4; split; auto].
    + intros M' HM [|f] Hf'; [lia|]. rewrite (owned_enum E l d vss kk fs vs Hk). cbn [decode resolve].
      rewrite (read_discr_at M' M B HM), Hdis, Hk.
      rewrite R3; auto. cbn [vdepth] in Hf'; lia.
  - (* named *)
    intros id d a v Hid Hv IH Hw [|fuel] z G p Hf Hrd Hal Ha; [lia|].
    destruct (resolve_named E HE id d Hid) as [Q1 Q2].
    assert (Hsz : size_of E (TNamed id) = size_of E d) by (unfold size_of; rewrite (named_size E HE id d Hid); reflexivity).
    assert (Hall : align_of E (TNamed id) = align_of E d) by (unfold align_of; rewrite (named_size E HE id d Hid); reflexivity).
    rewrite Hsz, Hall in *. rewrite (owned_named E HE id d v Hid).
    assert (Hs : g_ser_data R k E m (S fuel) (TNamed id) a z = g_ser_data R k E m (S fuel) d a z).
    { cbn [g_ser_data]. rewrite Q1, Q2. reflexivity. }
    rewrite Hs. eapply gdone_eqF; [reflexivity| |apply IH]; auto.
    2:{ apply (HE id d Hid). }
    intros B M HB (R1 & R2 & R3). split; [|split].
    + intros Hk. econstructor; eauto.
    + rewrite Hsz. exact R2.
    + intros M' HM [|f] Hf'; [lia|]. rewrite (owned_named E HE id d v Hid), <- (R3 M' HM (S f) Hf').
      cbn [decode]. rewrite Q1, Q2. reflexivity.
  - (* no element *)
    intros t a Hw fuel z G p Hf Hrd Hal Ha. cbn [length g_for_elems flat_map].
    eapply (gdone_ret R inv contents empties K); [exact Hrd|]. intros B M Hcp. split; [|split].
    + intros _. constructor.
    + intros _. exact Hcp.
    + reflexivity.
  - (* element *)
    intros t a v vs Hv IH1 Hvs IH2 Hw fuel z G p Hf Hrd Hal Ha.
    cbn [map] in Hf. rewrite list_max_cons in Hf.
    assert (Hlen : size_of E t * N.of_nat (length (v :: vs)) = size_of E t + size_of E t * N.of_nat (length vs)).
    { cbn [length]. rewrite Nat2N.inj_succ, N.mul_succ_r. lia. }
    cbn [length g_for_elems flat_map].
    assert (HF : forall i, (seg p (size_of E t) i \/ seg (p + size_of E t) (size_of E t * N.of_nat (length vs)) i) <->
                           seg p (size_of E t * N.of_nat (length (v :: vs))) i).
    { intros i. rewrite Hlen. unfold seg. lia. }
    eapply gdone_eqF; [exact HF| |].
    2:{ eapply (gdone_seq C) with (m := m) (p := p) (a := a).
        - eapply gat_eqF; [exact HF|exact Hrd].
        - intros i; unfold seg; lia.
        - apply (IH1 Hw fuel z G p); auto; try lia.
          eapply gat_sub; [exact Hrd|]. intros i Hi. apply HF. left; exact Hi.
        - intros x z1 G1 _ Hrd1 _ Hz1.
          pose proof (IH2 Hw fuel z1 (G ++ G1) (p + size_of E t)) as HD. rewrite Hz1 in HD.
          apply HD; auto; try lia.
          + apply gat_shift; [exact Hrd1|]. intros i; unfold seg; lia.
          + apply N.divide_add_r; [exact Hal|]. apply (wf_good C E HE t Hw). }
    intros B M HB ((R1 & R2 & R3) & (S1 & S2 & S3)). split; [|split].
    + intros Hk. constructor; [auto|]. rewrite <- N.add_assoc. auto.
    + intros Hk i Hi. apply HF in Hi. destruct Hi as [Hi|Hi]; [apply R2; auto|].
      rewrite (S2 Hk i Hi). f_equal. unfold seg in Hi. lia.
    + intros M' HM f Hf'. cbn [map] in Hf'. rewrite list_max_cons in Hf'.
      cbn [length dec_elems flat_map]. rewrite R3 by (auto; lia). rewrite S3 by (auto; lia).
      rewrite end_pos_app. reflexivity.
  - (* no field *)
    intros a l Hl Hfo Hall fuel z G p Hf Hrd Hal Ha. cbn [g_for_fields owned_fields].
    eapply (gdone_ret R inv contents empties K); [exact Hrd|]. intros B M Hcp. split; [|split].
    + intros _. constructor.
    + intros _. exact Hcp.
    + reflexivity.
  - (* field *)
    intros off t fs a v vs Hv IH1 Hvs IH2 l Hl Hfo Hall fuel z G p Hf Hrd Hal Ha.
    cbn [map] in Hf. rewrite list_max_cons in Hf.
    inversion Hfo as [|? ? ? Hb Ho Hao Hdis Hfo']; subst.
    assert (Hwt : wf_ty E t) by (apply (Hall off t); left; reflexivity).
    assert (HF : forall i, (seg (p + off) (size_of E t) i \/ in_fields E fs p i) <-> in_fields E ((off, t) :: fs) p i).
    { intros i. split.
      - intros [Hi|(o & u & H1 & H2)]; [exists off, t; split; [left; reflexivity|exact Hi]|].
        exists o, u. split; [right; exact H1|exact H2].
      - intros (o & u & [Heq|H1] & H2); [inversion Heq; subst; left; exact H2|right; exists o, u; auto]. }
    cbn [g_for_fields owned_fields].
    eapply gdone_eqF; [exact HF| |].
    2:{ eapply (gdone_seq C) with (m := m) (p := p) (a := a).
        - eapply gat_eqF; [exact HF|exact Hrd].
        - intros i Hi (o & u & H1 & H2). specialize (Hdis o u H1). unfold disjoint, seg in *. lia.
        - apply (IH1 Hwt fuel z G (p + off)); auto; try lia.
          + apply gat_shift; [|intros i; unfold seg; lia].
            eapply gat_sub; [exact Hrd|]. intros i Hi. apply HF. left; exact Hi.
          + eapply align_dvd; eauto.
        - intros x z1 G1 _ Hrd1 _ Hz1.
          pose proof (IH2 l Hl Hfo' (fun o u Hi => Hall o u (or_intror Hi)) fuel z1 (G ++ G1) p) as HD.
          rewrite Hz1 in HD. apply HD; auto; try lia. }
    intros B M HB ((R1 & R2 & R3) & (S1 & S2 & S3)). split; [|split].
    + intros Hk. constructor; [|auto]. rewrite <- N.add_assoc. auto.
    + intros Hk i Hi. apply HF in Hi. destruct Hi as [Hi|Hi]; [|apply S2; auto].
      rewrite (R2 Hk i Hi). f_equal. unfold seg in Hi. lia.
    + intros M' HM f Hf'. cbn [map] in Hf'. rewrite list_max_cons in Hf'.
      cbn [dec_fields owned_fields]. rewrite R3 by (auto; lia). rewrite S3 by (auto; lia).
      rewrite end_pos_app. reflexivity.
Qed.

End GenSerValue.
