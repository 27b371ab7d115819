(** * EncodeFacts: every serializer produces the bytes of the reference encoder. *)
From Verif Require Import Base Types Storage Serializer Serialize Spec ArithFacts StorageFacts StorageHist MemFacts TypeFacts
  SerFacts SerMain SerValue SerRoot SerProps Client ClientSpec ClientFacts Encode.
From Coq Require Import ZifyBool ZifyNat ZifyN.
Local Open Scope N_scope.

Section EncodeFacts.
Context {P : Params}.
Notation zpos z := (s_pos (sw_s (z_sw z))).
Notation zbuf z := (s_buf (sw_s (z_sw z))).

(** ** The encoder succeeds on every valid value and ends where the layout ends *)
Section Some_.
Variable k : kind.
Variable E : tenv.
Variable m : mem.
Hypothesis HE : wf_env E.

Lemma then_some x f e1 e2 : x = Some e1 -> f (e_end e1) = Some e2 ->
  then_enc x f = Some (mkEnc (e_copies e1 ++ e_copies e2) (e_patches e1 ++ e_patches e2) (e_end e2)).
Proof. intros -> H. cbn. rewrite H. reflexivity. Qed.

Lemma then_inv x f e : then_enc x f = Some e -> exists e1 e2, x = Some e1 /\ f (e_end e1) = Some e2 /\
  e = mkEnc (e_copies e1 ++ e_copies e2) (e_patches e1 ++ e_patches e2) (e_end e2).
Proof.
  unfold then_enc. destruct x as [e1|]; [|discriminate].
  destruct (f (e_end e1)) as [e2|] eqn:Ef; [|discriminate]. intros H; inversion H; subst. eauto.
Qed.

Lemma blocks_app c ps1 ps2 : blocks c (ps1 ++ ps2) = blocks c ps1 ++ blocks (end_pos c ps1) ps2.
Proof. revert c. induction ps1 as [|[l n] ps1 IH]; intros c; cbn; [reflexivity|]. rewrite IH. reflexivity. Qed.

(** The copies are the allocations [ps], one after the other from [cur]. *)
Definition covers_all (e : enc) (cur : N) (ps : list (layout * N)) : Prop :=
  e_end e = end_pos cur ps /\ map extent (e_copies e) = blocks cur ps.

Lemma covers_then e1 e2 cur ps1 ps2 :
  covers_all e1 cur ps1 -> covers_all e2 (e_end e1) ps2 ->
  covers_all (mkEnc (e_copies e1 ++ e_copies e2) (e_patches e1 ++ e_patches e2) (e_end e2)) cur (ps1 ++ ps2).
Proof.
  intros [A1 A2] [B1 B2]. unfold covers_all; cbn [e_end e_copies].
  rewrite end_pos_app, blocks_app, map_app, A2, B2, B1, A1. auto.
Qed.

Lemma vec_some vl l c tp n p cur inner ps :
  (0 < l_size l -> 0 < n ->
     exists e, inner (push_start cur l) (push_end cur l n) = Some e /\ covers_all e (push_end cur l n) ps) ->
  exists e, enc_vec k vl l c tp n p cur inner = Some e /\
    covers_all e cur (if (l_size l =? 0) || (n =? 0) then [] else (l, n) :: ps).
Proof.
  intros H. unfold enc_vec, block_enc.
  destruct (N.eqb_spec (l_size l) 0) as [H1|H1]; cbn [orb]; [eexists; split; [reflexivity|split; reflexivity]|].
  destruct (N.eqb_spec n 0) as [H2|H2]; [eexists; split; [reflexivity|split; reflexivity]|].
  destruct H as (e & He & Hn); [lia|lia|].
  eexists. split; [eapply then_some with (e2 := e); [reflexivity|exact He]|].
  destruct Hn as [N1 N2]. split; [exact N1|]. cbn [e_copies map app extent blocks]. rewrite N2. reflexivity.
Qed.

Lemma encode_some H t a v : repr E H m t a v ->
  forall f p cur, (vdepth v < f)%nat ->
  exists e, encode k E m f t a p cur = Some e /\ covers_all e cur (owned E t v).
Proof.
  intros HR. revert t a v HR.
  apply (repr_mind P E H m
    (fun t a v _ => forall f p cur, (vdepth v < f)%nat ->
       exists e, encode k E m f t a p cur = Some e /\ covers_all e cur (owned E t v))
    (fun t a vs _ => forall f p cur, (list_max (map vdepth vs) < f)%nat ->
       exists e, enc_elems (encode k E m f t) (size_of E t) (length vs) a p cur = Some e /\
         covers_all e cur (flat_map (owned E t) vs))
    (fun fs a vs _ => forall f p cur, (list_max (map vdepth vs) < f)%nat ->
       exists e, enc_fields (encode k E m f) fs a p cur = Some e /\
         covers_all e cur (owned_fields E vs fs))).
  - intros l ok a n Hr Hok [|f] p cur Hf; [lia|]. eexists; split; [reflexivity|split; reflexivity].
  - intros t a tp v Hp Hv Hh Hrep IH [|f] p cur Hf; [lia|]. cbn [encode resolve owned vdepth] in *.
    destruct (N.eqb_spec (size_of E t) 0); [eexists; split; [reflexivity|split; reflexivity]|].
    rewrite Hp. unfold block_enc.
    destruct (IH f (push_start cur (layout_of E t)) (push_end cur (layout_of E t) 1) ltac:(lia)) as (e & He & Hend).
    eexists. split; [eapply then_some with (e2 := e); [reflexivity|exact He]|].
    destruct Hend as [N1 N2]. split; [exact N1|]. cbn [e_copies map app extent blocks]. rewrite N2. reflexivity.
  - intros vl t a c tp vs Hc Hp Hn Hvec Hh Hel IH [|f] p cur Hf; [lia|]. cbn [encode resolve owned vdepth] in *.
    rewrite Hc, Hp, Hn. apply vec_some. intros _ _. rewrite Nat2N.id. apply IH. lia.
  - intros vl a c tp bs Hc Hp Hn Hvec Hh Hel [|f] p cur Hf; [lia|]. cbn [encode resolve owned vdepth] in *.
    rewrite Hc, Hp, Hn.
    destruct (vec_some vl u8_layout c tp (N.of_nat (length bs)) p cur (fun _ cur' => Some (nothing cur')) []) as (e & He & Hend).
    { intros _ _. eexists; split; [reflexivity|split; reflexivity]. }
    exists e. split; [exact He|]. exact Hend.
  - intros t n a vs -> Hel IH [|f] p cur Hf; [lia|]. cbn [encode resolve owned vdepth] in *.
    rewrite Nat2N.id. apply IH. lia.
  - intros l fs a vs Hfs IH [|f] p cur Hf; [lia|]. cbn [vdepth] in Hf. rewrite owned_struct.
    cbn [encode resolve]. apply IH. lia.
  - intros l d vss a kk fs vs Hd Hk Hfs IH [|f] p cur Hf; [lia|]. cbn [vdepth] in Hf.
    rewrite (owned_enum E l d vss kk fs vs Hk). cbn [encode resolve]. rewrite Hd, Hk. apply IH. lia.
  - intros id d a v Hid Hv IH [|f] p cur Hf; [lia|].
    destruct (IH (S f) p cur Hf) as (e & He & Hend). exists e.
    rewrite (owned_named E HE id d v Hid). split; [|exact Hend].
    destruct (resolve_named E HE id d Hid) as [Q1 Q2].
    cbn [encode] in *. rewrite Q1. rewrite Q2 in He. exact He.
  - intros t a f p cur Hf. eexists; split; [reflexivity|split; reflexivity].
  - intros t a v vs Hv IH1 Hvs IH2 f p cur Hf. cbn [map] in Hf. rewrite list_max_cons in Hf.
    cbn [length enc_elems flat_map].
    destruct (IH1 f p cur ltac:(lia)) as (e1 & He1 & Hend1).
    destruct (IH2 f (p + size_of E t) (e_end e1) ltac:(lia)) as (e2 & He2 & Hend2).
    eexists. split; [eapply then_some; [exact He1|exact He2]|].
    apply covers_then; assumption.
  - intros a f p cur Hf. eexists; split; [reflexivity|split; reflexivity].
  - intros off t fs a v vs Hv IH1 Hvs IH2 f p cur Hf. cbn [map] in Hf. rewrite list_max_cons in Hf.
    cbn [enc_fields owned_fields].
    destruct (IH1 f (p + off) cur ltac:(lia)) as (e1 & He1 & Hend1).
    destruct (IH2 f p (e_end e1) ltac:(lia)) as (e2 & He2 & Hend2).
    eexists. split; [eapply then_some; [exact He1|exact He2]|].
    apply covers_then; assumption.
Qed.

End Some_.

(** ** The bytes *)
Section Cfg.
Hypothesis C : cfg_ok.
Hypothesis HA : alloc_ok.
Variable E : tenv.
Hypothesis HE : wf_env E.
Variable k : kind.
Variable m : mem.

Ltac cfg :=
  pose proof (c_SA_pos C); pose proof (c_MVA_pos C); pose proof (c_VA_pos C);
  pose proof (c_VA_MVA C); pose proof (c_MVA_SA C); pose proof (c_MAXC C);
  pose proof (c_MVA_le_MAXC C); pose proof (c_sum C); pose proof (c_umod C);
  pose proof (c_SA_lt_imax C); pose proof (pW_vals (c_machine C)).

Definition unpatched (e : enc) (i : N) : Prop :=
  forall q w, In (q, w) (e_patches e) -> ~ (q <= i /\ i < q + pW).

Definition exact (F : N -> Prop) (p a : N) (e : enc) (B : N) (M : mem) : Prop :=
  (forall q w, In (q, w) (e_patches e) -> forall i, i < pW -> M (B + (q + i)) = patch_src B w i) /\
  (forall i, F i -> unpatched e i -> M (B + i) = m (a + (i - p))) /\
  (forall st tp n, In (st, tp, n) (e_copies e) ->
     forall i, seg st n i -> unpatched e i -> M (B + i) = m (tp + (i - st))).

Lemma exact_nothing (F : N -> Prop) p a cur B M : copied m a p F B M -> exact F p a (nothing cur) B M.
Proof.
  intros H. unfold exact. cbn [nothing e_patches e_copies]. ands; [intros q w []| |intros st tp n []].
  intros i Hi _. apply H. exact Hi.
Qed.

Lemma unpatched_then e1 e2 c : forall i, unpatched (mkEnc (e_copies e1 ++ e_copies e2) (e_patches e1 ++ e_patches e2) c) i ->
  unpatched e1 i /\ unpatched e2 i.
Proof.
  intros i H. split; intros q w Hin; apply (H q w); cbn; apply in_or_app; auto.
Qed.

Lemma exact_then (F1 F2 F : N -> Prop) p a e1 e2 c B M :
  (forall i, F i -> F1 i \/ F2 i) ->
  exact F1 p a e1 B M -> exact F2 p a e2 B M ->
  exact F p a (mkEnc (e_copies e1 ++ e_copies e2) (e_patches e1 ++ e_patches e2) c) B M.
Proof.
  intros HF (A1 & A2 & A3) (B1 & B2 & B3). unfold exact. ands.
  - intros q w Hin. cbn in Hin. apply in_app_or in Hin. destruct Hin; eauto.
  - intros i Hi Hu. apply unpatched_then in Hu. destruct (HF i Hi); [apply A2|apply B2]; tauto.
  - intros st tp n Hin i Hi Hu. apply unpatched_then in Hu. cbn in Hin. apply in_app_or in Hin.
    destruct Hin; [eapply A3|eapply B3]; eauto; tauto.
Qed.

Lemma exact_shift (F : N -> Prop) p a d e B M :
  (forall i, F i -> p + d <= i) -> exact F (p + d) (a + d) e B M -> exact F p a e B M.
Proof.
  intros HF (A1 & A2 & A3). unfold exact. ands; auto.
  intros i Hi Hu. rewrite A2 by auto. f_equal. specialize (HF i Hi). lia.
Qed.

Lemma exact_sub (F F' : N -> Prop) p a e B M :
  (forall i, F' i -> F i) -> exact F p a e B M -> exact F' p a e B M.
Proof. intros HF (A1 & A2 & A3). unfold exact. ands; auto. Qed.

Definition cap_enc (vl : vlay) (p c n cur : N) : enc :=
  mkEnc [] (if fixes_caps k && negb (c =? n) then [(p + cap_off vl, PWord n)] else []) cur.

Lemma cap_piece_enc vl l a p c n z G :
  ready k z G (seg (p + cap_off vl) pW) m p a ->
  read_word m (a + cap_off vl) = Some c -> good_layout l ->
  n < umod -> pW <= MVA -> (pW | p) -> a + 3 * pW <= umod ->
  done k z G (seg (p + cap_off vl) pW) []
    (exact (seg (p + cap_off vl) pW) p a (cap_enc vl p c n (zpos z)))
    (overwrite_with k (
       cap <- load_word m (a + cap_off vl) ;;
       if negb (cap =? n) then
         (vo <- const_or (vec_offsets vl (l_align l)) ;;
          cap_addr <- addr_from_ref_offset k a (vo_cap vo) ;;
          overwrite k cap_addr usize_layout (word_src n))
       else ret tt) z).
Proof.
  intros Hr Hc Hl Hn Hmv Hal Ha. cfg.
  destruct (vl_offs vl ltac:(lia)) as (V1 & V2 & V3 & V4 & V5 & V6 & V7 & V8 & V9).
  assert (Hkeep : fixes_caps k && negb (c =? n) = false ->
     done k z G (seg (p + cap_off vl) pW) []
    (exact (seg (p + cap_off vl) pW) p a (cap_enc vl p c n (zpos z))) (ret tt z)).
  { intros Heq. unfold cap_enc. rewrite Heq. eapply done_ret; [exact Hr|]. intros B M Hcp.
    apply (exact_nothing _ _ _ (zpos z)). exact Hcp. }
  unfold cap_enc in *. destruct k; cbn [overwrite_with fixes_caps andb] in *; try (apply Hkeep; reflexivity).
  erewrite bind_ok by (unfold load_word; rewrite Hc; reflexivity).
  destruct (N.eqb_spec c n) as [->|Hne]; cbn [negb] in *.
  - apply Hkeep. reflexivity.
  - rewrite (vec_offsets_ok vl (l_align l)).
    2:{ pose proof (pow2_pos _ (proj1 Hl)). lia. }
    erewrite bind_ok by reflexivity. cbn [vo_cap]. unfold addr_from_ref_offset; cbn [tracking].
    rewrite add_u_bind by lia.
    eapply done_eqF; [reflexivity| |apply (usize_word_done C z G m (a + cap_off vl) (p + cap_off vl) n)]; auto.
    + intros B M _ HR. unfold exact. cbn [e_patches e_copies]. ands.
      * intros q w [Heq|[]]. inversion Heq; subst. intros i Hi. cbn [patch_src].
        rewrite N.add_assoc. apply HR. exact Hi.
      * intros i Hi Hu. exfalso. apply (Hu (p + cap_off vl) (PWord n)); [left; reflexivity|exact Hi].
      * intros st tp x [].
    + apply ready_shift; [exact Hr|]. intros i; unfold seg; lia.
    + apply N.divide_add_r; auto.
Qed.

Lemma header_nonempty_enc vl l c tp n a p (push : N -> addr -> M zs N) (process : N -> M zs unit) psc inner z G e :
  let st := push_start (zpos z) l in
  ready k z G (seg p (3 * pW)) m p a ->
  read_word m (a + cap_off vl) = Some c ->
  read_word m (a + ptr_off vl) = Some tp ->
  vec_ok l c tp n ->
  good_layout l -> 0 < l_size l -> 0 < n -> pW <= MVA -> (pW | p) -> a + 3 * pW <= umod ->
  (forall tp' ad z', push tp' ad z' = push_and_process_slice k (slice_at m l tp' n) ad (process tp') z') ->
  (forall z1 G1 e1, zpos z1 = push_end (zpos z) l n -> inner st (zpos z1) = Some e1 ->
     ready k z1 G1 (seg st (l_size l * n)) m st tp ->
     done k z1 G1 (seg st (l_size l * n)) psc (exact (seg st (l_size l * n)) st tp e1) (process tp z1)) ->
  enc_vec k vl l c tp n p (zpos z) inner = Some e ->
  done k z G (seg p (3 * pW)) ((l, n) :: psc) (exact (seg p (3 * pW)) p a e)
    ((overwrite_with k (
        cap <- load_word m (a + cap_off vl) ;;
        if negb (cap =? n) then
          (vo <- const_or (vec_offsets vl (l_align l)) ;;
           cap_addr <- addr_from_ref_offset k a (vo_cap vo) ;;
           overwrite k cap_addr usize_layout (word_src n))
        else ret tt) ;;;
      vo <- const_or (vec_offsets vl (l_align l)) ;;
      ptr_addr <- addr_from_ref_offset k a (vo_ptr vo) ;;
      tp' <- load_word m (a + ptr_off vl) ;;
      push tp' ptr_addr ;;;
      ret tt) z).
Proof.
  intros st Hr Hc Hp Hvec Hl Hsz Hpos Hmv Hal Ha Hpush Hproc Henc. cfg.
  destruct (vl_offs vl ltac:(lia)) as (V1 & V2 & V3 & V4 & V5 & V6 & V7 & V8 & V9).
  destruct Hvec as (W1 & W2 & W3 & W4).
  destruct (N.eqb_spec (l_size l) 0) as [|_]; [lia|].
  assert (Hnc : l_size l * n <= l_size l * c) by (apply N.mul_le_mono_l; exact W3).
  assert (Hnu : n < umod).
  { assert (1 * n <= l_size l * n) by (apply N.mul_le_mono_r; lia). lia. }
  unfold enc_vec in Henc. rewrite (proj2 (N.eqb_neq (l_size l) 0)) in Henc by lia.
  rewrite (proj2 (N.eqb_neq n 0)) in Henc by lia. unfold block_enc in Henc. fold st in Henc.
  apply then_inv in Henc. destruct Henc as (e1 & e2 & He1 & He2 & ->).
  inversion He1; subst e1. clear He1. cbn [e_end e_patches e_copies] in *.
  assert (Hr3 : ready k z G (fun i => (seg (p + cap_off vl) pW i \/ seg (p + ptr_off vl) pW i)
                                      \/ seg (p + len_off vl) pW i) m p a).
  { eapply ready_eqF; [|exact Hr]. intros i. symmetry. apply words_split. lia. }
  unfold disjoint in *.
  eapply done_eqF; [intros i; symmetry; apply (words_split vl); lia| |].
  2:{ eapply done_frame; [exact C|exact Hr3| |].
      { intros i; unfold seg. lia. }
      change ((l, n) :: psc) with ([] ++ (l, n) :: psc).
      eapply (done_seq C) with (m := m) (p := p) (a := a).
      - eapply ready_sub; [exact Hr3|]. intros i; cbv beta; tauto.
      - intros i; unfold seg; lia.
      - apply (cap_piece_enc vl l a p c n); auto.
        eapply ready_sub; [exact Hr3|]. intros i; cbv beta; tauto.
      - intros x z1 G1 _ Hr1 Hmap1 Hpos1. cbn [end_pos] in Hpos1.
        rewrite (vec_offsets_ok vl (l_align l)).
        2:{ pose proof (pow2_pos _ (proj1 Hl)). lia. }
        erewrite bind_ok by reflexivity. cbn [vo_ptr].
        erewrite bind_ok with (a := addr_of k (a + ptr_off vl)) (s' := z1).
        2:{ unfold addr_from_ref_offset, addr_of. destruct (tracking k); [|reflexivity].
            unfold bind. rewrite add_u_ok by lia. reflexivity. }
        erewrite bind_ok by (unfold load_word; rewrite Hp; reflexivity).
        apply done_void. rewrite Hpush.
        pose proof (alloc_done C HA k z1 (G ++ G1) m l n (a + ptr_off vl) (p + ptr_off vl) tp (process tp) psc
          (exact (seg st (l_size l * n)) st tp e2)) as HD.
        cbv zeta in HD. rewrite Hpos1 in HD. fold st in HD. apply HD; auto.
        + apply ready_shift; [exact Hr1|]. intros i; unfold seg; lia.
        + lia.
        + apply N.divide_add_r; auto.
        + intros z2 G2 Hz2 Hr2. apply Hproc; auto. rewrite Hz2. exact He2. }
  cbv beta. intros B M HB [((R1a & R1b & _) & (R3 & R4 & (S1 & S2 & S3))) R6].
  unfold cap_enc in *. cbn [e_patches e_copies] in *.
  assert (Htr : fixes_ptrs k = tracking k) by (destruct k; reflexivity).
  unfold exact. cbn [e_patches e_copies]. ands.
  - intros q w Hin i Hi. rewrite <- app_assoc in Hin. apply in_app_or in Hin. destruct Hin as [Hin|Hin].
    + apply (R1a q w Hin i Hi).
    + apply in_app_or in Hin. destruct Hin as [Hin|Hin]; [|apply (S1 q w Hin i Hi)].
      rewrite Htr in Hin. destruct (tracking k); [|destruct Hin].
      destruct Hin as [Heq|[]]. inversion Heq; subst. cbn [patch_src].
      rewrite N.add_assoc. apply (proj1 (R3 eq_refl)). exact Hi.
  - intros i Hi Hu. apply (words_split vl) in Hi; [|lia]. destruct Hi as [[Hi|Hi]|Hi].
    + apply R1b; [exact Hi|]. intros q w Hin. apply (Hu q w). cbn. rewrite <- app_assoc. apply in_or_app; auto.
    + destruct (tracking k) eqn:Ek.
      * exfalso. apply (Hu (p + ptr_off vl) (PPtr st)); [|exact Hi]. cbn. rewrite Htr.
        apply in_or_app; left. apply in_or_app; right. left; reflexivity.
      * rewrite (R4 eq_refl i Hi). f_equal. unfold seg in Hi. lia.
    + apply R6. exact Hi.
  - intros st' tp' n' Hin i Hi Hu.
    assert (Hu2 : unpatched e2 i).
    { intros q w Hq. apply (Hu q w). cbn. apply in_or_app; right. exact Hq. }
    cbn in Hin. destruct Hin as [Heq|Hin]; [|eapply S3; eauto].
    inversion Heq; subst. apply S2; auto.
Qed.

Lemma header_empty_enc vl l c tp a p z G inner e :
  ready k z G (seg p (3 * pW)) m p a ->
  read_word m (a + cap_off vl) = Some c ->
  good_layout l -> 0 < l_size l -> pW <= MVA -> (pW | p) -> a + 3 * pW <= umod ->
  enc_vec k vl l c tp 0 p (zpos z) inner = Some e ->
  done k z G (seg p (3 * pW)) [] (exact (seg p (3 * pW)) p a e)
    (overwrite_with k (
        cap <- load_word m (a + cap_off vl) ;;
        if negb (cap =? 0) then
          (vo <- const_or (vec_offsets vl (l_align l)) ;;
           overwrite_empty k vo (l_align l) a)
        else ret tt) z).
Proof.
  intros Hr Hc Hl Hsz Hmv Hal Ha Henc. cfg.
  destruct (vl_offs vl ltac:(lia)) as (V1 & V2 & V3 & V4 & V5 & V6 & V7 & V8 & V9).
  pose proof (pow2_pos _ (proj1 Hl)) as Hlp.
  unfold enc_vec in Henc. rewrite (proj2 (N.eqb_neq (l_size l) 0)) in Henc by lia.
  rewrite N.eqb_refl in Henc. inversion Henc; subst e; clear Henc.
  assert (Hkeep : fixes_caps k && negb (c =? 0) = false ->
    done k z G (seg p (3 * pW)) []
      (exact (seg p (3 * pW)) p a (mkEnc [] (if fixes_caps k && negb (c =? 0)
                    then [(p + cap_off vl, PWord 0); (p + ptr_off vl, PWord (l_align l))] else []) (zpos z))) (ret tt z)).
  { intros Hcc. rewrite Hcc. eapply done_ret; [exact Hr|]. intros B M Hcp.
    apply (exact_nothing _ _ _ (zpos z)). exact Hcp. }
  destruct k; cbn [overwrite_with fixes_caps andb] in *; try (apply Hkeep; reflexivity).
  erewrite bind_ok by (unfold load_word; rewrite Hc; reflexivity).
  destruct (N.eqb_spec c 0) as [->|Hne]; cbn [negb] in *.
  - apply Hkeep; reflexivity.
  - rewrite (vec_offsets_ok vl (l_align l)) by lia.
    erewrite bind_ok by reflexivity.
    assert (Hr3 : ready Complete z G (fun i => (seg (p + cap_off vl) pW i \/ seg (p + ptr_off vl) pW i)
                                        \/ seg (p + len_off vl) pW i) m p a).
    { eapply ready_eqF; [|exact Hr]. intros i. symmetry. apply words_split. lia. }
    unfold disjoint in *.
    assert (l_align l <= MVA) by apply Hl.
    eapply done_eqF; [intros i; symmetry; apply (words_split vl); lia| |].
    2:{ eapply done_frame; [exact C|exact Hr3| |].
        { intros i; unfold seg. lia. }
        apply (overwrite_empty_done C z G m vl (l_align l) a p); auto; try lia.
        eapply ready_sub; [exact Hr3|]. intros i; cbv beta; tauto. }
    cbv beta. intros B M HB [[R1 R2] R3]. unfold exact. cbn [e_patches e_copies]. ands.
    + intros q w [Heq|[Heq|[]]]; inversion Heq; subst; intros i Hi; cbn [patch_src]; rewrite N.add_assoc;
        [apply R1|apply R2]; exact Hi.
    + intros i Hi Hu. apply (words_split vl) in Hi; [|lia]. destruct Hi as [[Hi|Hi]|Hi].
      * exfalso. apply (Hu (p + cap_off vl) (PWord 0)); [left; reflexivity|exact Hi].
      * exfalso. apply (Hu (p + ptr_off vl) (PWord (l_align l))); [right; left; reflexivity|exact Hi].
      * apply R3. exact Hi.
    + intros st' tp' n' [].
Qed.

Theorem value_enc H t a v :
  repr E H m t a v -> wf_ty E t ->
  forall fuel f z G p e, (vdepth v < fuel)%nat -> (vdepth v < f)%nat ->
    encode k E m f t a p (zpos z) = Some e ->
    ready k z G (seg p (size_of E t)) m p a -> (align_of E t | p) -> a + size_of E t <= umod ->
    done k z G (seg p (size_of E t)) (owned E t v) (exact (seg p (size_of E t)) p a e) (ser_data k E m fuel t a z).
Proof.
  intros HR. revert t a v HR. pose proof (pW_vals (c_machine C)) as HpW.
  apply (repr_mind P E H m
    (fun t a v _ => wf_ty E t ->
       forall fuel f z G p e, (vdepth v < fuel)%nat -> (vdepth v < f)%nat ->
       encode k E m f t a p (zpos z) = Some e ->
       ready k z G (seg p (size_of E t)) m p a -> (align_of E t | p) -> a + size_of E t <= umod ->
       done k z G (seg p (size_of E t)) (owned E t v) (exact (seg p (size_of E t)) p a e) (ser_data k E m fuel t a z))
    (fun t a vs _ => wf_ty E t ->
       forall fuel f z G p e, (list_max (map vdepth vs) < fuel)%nat -> (list_max (map vdepth vs) < f)%nat ->
       enc_elems (encode k E m f t) (size_of E t) (length vs) a p (zpos z) = Some e ->
       ready k z G (seg p (size_of E t * N.of_nat (length vs))) m p a -> (align_of E t | p) ->
       a + size_of E t * N.of_nat (length vs) <= umod ->
       done k z G (seg p (size_of E t * N.of_nat (length vs))) (flat_map (owned E t) vs)
         (exact (seg p (size_of E t * N.of_nat (length vs))) p a e)
         (for_elems (length vs) a (size_of E t) (ser_data k E m fuel t) z))
    (fun fs a vs _ => forall l, good_layout l -> fields_ok E l fs -> (forall o t, In (o, t) fs -> wf_ty E t) ->
       forall fuel f z G p e, (list_max (map vdepth vs) < fuel)%nat -> (list_max (map vdepth vs) < f)%nat ->
       enc_fields (encode k E m f) fs a p (zpos z) = Some e ->
       ready k z G (in_fields E fs p) m p a -> (l_align l | p) -> a + l_size l <= umod ->
       done k z G (in_fields E fs p) (owned_fields E vs fs) (exact (in_fields E fs p) p a e)
         (for_fields fs a (ser_data k E m fuel) z))).
  - (* prim *)
    intros l ok a n Hr Hok Hw [|fuel] [|f] z G p e Hf Hf' He Hrd Hal Ha; try lia.
    cbn [encode resolve] in He. inversion He; subst e.
    cbn [ser_data resolve owned]. eapply done_ret; [exact Hrd|].
    intros B M Hcp. apply exact_nothing. exact Hcp.
  - (* box *)
    intros t a tp v Hp Hv Hh Hrep IH Hw [|fuel] [|f] z G p e Hf Hf' He Hrd Hal Ha; try lia.
    inversion Hw as [|? Hwt Hmv| | | | | |]; subst.
    unfold size_of in Hrd, Ha; cbn [layout_of usize_layout l_size] in Hrd, Ha.
    unfold align_of in Hal; cbn [layout_of usize_layout l_align] in Hal.
    cbn [ser_data resolve]. unfold ser_box. cbn [owned resolve].
    change (size_of E (TBox t)) with pW. cbn [encode resolve] in He.
    destruct (N.eqb_spec (size_of E t) 0) as [Hz|Hnz].
    + inversion He; subst e. eapply done_ret; [exact Hrd|]. intros B M Hcp. apply exact_nothing. exact Hcp.
    + set (l := layout_of E t) in *. set (st := push_start (zpos z) l).
      rewrite Hp in He. unfold block_enc in He. fold st in He. apply then_inv in He.
      destruct He as (e1 & e2 & He1 & He2 & ->). inversion He1; subst e1; clear He1.
      cbn [e_end e_copies e_patches] in *.
      pose proof (wf_good C E HE t Hwt) as Hg. fold l in Hg.
      erewrite bind_ok with (a := addr_of k a) (s' := z)
        by (unfold addr_from_ref, addr_of; destruct (tracking k); reflexivity).
      erewrite bind_ok by (unfold load_word; rewrite Hp; reflexivity).
      apply done_void. unfold push_and_process.
      assert (Hsz : 0 < l_size l) by (unfold size_of in Hnz; fold l in Hnz; lia).
      eapply done_eqF; [reflexivity| |
        apply (alloc_done C HA k z G m l 1 a p tp (ser_data k E m fuel t tp) (owned E t v)
                 (exact (seg st (l_size l * 1)) st tp e2))]; auto; try lia.
      * cbv beta zeta. fold st. intros B M HB (R1 & R2 & (S1 & S2 & S3)).
        assert (Htr : fixes_ptrs k = tracking k) by (destruct k; reflexivity).
        unfold exact. cbn [e_patches e_copies]. cbn [app]. ands.
        -- intros q w Hin i Hi. apply in_app_or in Hin. destruct Hin as [Hin|Hin]; [|apply (S1 q w Hin i Hi)].
           rewrite Htr in Hin. destruct (tracking k); [|destruct Hin].
           destruct Hin as [Heq|[]]. inversion Heq; subst. cbn [patch_src].
           rewrite N.add_assoc. apply (proj1 (R1 eq_refl)). exact Hi.
        -- intros i Hi Hu. destruct (tracking k) eqn:Ek.
           ++ exfalso. apply (Hu p (PPtr st)); [|exact Hi]. cbn. rewrite Htr. left; reflexivity.
           ++ apply (R2 eq_refl). exact Hi.
        -- intros st' tp' n' Hin i Hi Hu.
           assert (Hu2 : unpatched e2 i).
           { intros q w Hq. apply (Hu q w). cbn. apply in_or_app; right. exact Hq. }
           cbn in Hin. destruct Hin as [Heq|Hin]; [|eapply S3; eauto].
           inversion Heq; subst. apply S2; auto.
      * rewrite N.mul_1_r. apply Hg.
      * intros z1 G1 Hz1 Hrd1. cbv zeta in *. fold st in Hrd1 |- *. rewrite N.mul_1_r in *.
        change (l_size l) with (size_of E t).
        apply (IH Hwt fuel f); auto.
        -- cbn in Hf; lia.
        -- cbn in Hf'; lia.
        -- rewrite Hz1. exact He2.
        -- apply (push_start_align C), Hg.
        -- destruct Hv as (_ & _ & Hv). rewrite N.mul_1_r in Hv. exact Hv.
  - (* vec *)
    intros vl t a c tp vs Hc Hp Hn Hvec Hh Hel IH Hw [|fuel] [|f] z G p e Hf Hf' He Hrd Hal Ha; try lia.
    inversion Hw as [| |? ? Hwt Hmv| | | | |]; subst.
    change (size_of E (TVec vl t)) with (3 * pW) in *. change (align_of E (TVec vl t)) with pW in *.
    set (l := layout_of E t) in *. set (n := N.of_nat (length vs)) in *.
    pose proof (wf_good C E HE t Hwt) as Hg. fold l in Hg.
    cbn [encode resolve] in He. rewrite Hc, Hp, Hn in He. fold l in He.
    cbn [ser_data resolve]. unfold ser_vec. cbn [owned resolve]. fold n l.
    change (size_of E t) with (l_size l) in *. change (align_of E t) with (l_align l) in *.
    cbn [vdepth] in Hf, Hf'.
    destruct (N.eqb_spec (l_size l) 0) as [Hz|Hnz]; cbn [orb].
    + unfold enc_vec in He. rewrite Hz in He. cbn [N.eqb] in He. inversion He; subst e.
      eapply done_ret; [exact Hrd|]. intros B M Hcp. apply exact_nothing. exact Hcp.
    + erewrite bind_ok by (unfold load_word; rewrite Hn; reflexivity).
      destruct (N.eqb_spec n 0) as [Hn0|Hn0].
      * rewrite Hn0 in He. eapply (header_empty_enc vl l c tp); eauto; lia.
      * assert (Hlen : N.to_nat n = length vs) by (unfold n; apply Nat2N.id).
        eapply (header_nonempty_enc vl l c tp n a p
             (fun tp' ad => push_and_process_slice k (slice_at m l tp' n) ad
                              (for_elems (N.to_nat n) tp' (l_size l) (ser_data k E m fuel t)))
             (fun tp' => for_elems (N.to_nat n) tp' (l_size l) (ser_data k E m fuel t))
             (flat_map (owned E t) vs)); eauto; try lia.
        cbv beta. intros z1 G1 e1 Hz1 He1 Hrd1. rewrite Hlen in *.
        apply (IH Hwt fuel f); auto; try lia.
        -- apply (push_start_align C), Hg.
        -- apply Hvec.
  - (* string *)
    intros vl a c tp bs Hc Hp Hn Hvec Hh Hel Hw [|fuel] [|f] z G p e Hf Hf' He Hrd Hal Ha; try lia.
    inversion Hw as [| | |? Hmv| | | |]; subst.
    change (size_of E (TString vl)) with (3 * pW) in *. change (align_of E (TString vl)) with pW in *.
    set (n := N.of_nat (length bs)) in *.
    cbn [encode resolve] in He. rewrite Hc, Hp, Hn in He.
    cbn [ser_data resolve]. unfold ser_string. cbn [owned resolve]. fold n.
    erewrite bind_ok by (unfold load_word; rewrite Hn; reflexivity).
    destruct (N.eqb_spec n 0) as [Hn0|Hn0].
    + rewrite Hn0 in He. eapply (header_empty_enc vl u8_layout c tp); eauto; try (cbn; lia). apply (u8_good C).
    + eapply (header_nonempty_enc vl u8_layout c tp n a p
           (fun tp' ad => ser_push_slice k (slice_at m u8_layout tp' n) ad)
           (fun _ => ret tt) []); eauto; try lia.
      * apply (u8_good C).
      * cbn; lia.
      * intros. apply ser_push_slice_eq.
      * cbv beta. intros z1 G1 e1 Hz1 He1 Hrd1. inversion He1; subst e1.
        eapply done_ret; [exact Hrd1|]. intros B M Hcp. apply exact_nothing. exact Hcp.
  - (* array *)
    intros t n a vs -> Hel IH Hw [|fuel] [|f] z G p e Hf Hf' He Hrd Hal Ha; try lia.
    inversion Hw as [| | | |? ? Hwt Hle| | |]; subst.
    change (size_of E (TArray t (N.of_nat (length vs)))) with (size_of E t * N.of_nat (length vs)) in *.
    change (align_of E (TArray t (N.of_nat (length vs)))) with (align_of E t) in *.
    cbn [ser_data resolve owned]. cbn [encode resolve] in He. rewrite Nat2N.id in *. cbn [vdepth] in Hf, Hf'.
    apply (IH Hwt fuel f); auto; lia.
  - (* struct *)
    intros l fs a vs Hfs IH Hw [|fuel] [|f] z G p e Hf Hf' He Hrd Hal Ha; try lia.
    inversion Hw as [| | | | |? ? Hl Hfo Hall| |]; subst.
    change (size_of E (TStruct l fs)) with (l_size l) in *. change (align_of E (TStruct l fs)) with (l_align l) in *.
    rewrite owned_struct. cbn [ser_data resolve]. cbn [encode resolve] in He. cbn [vdepth] in Hf, Hf'.
    assert (Hin : forall i, in_fields E fs p i -> seg p (l_size l) i) by (intros i; apply fields_inside; exact Hfo).
    eapply done_eqF with (F := fun i => in_fields E fs p i \/ (seg p (l_size l) i /\ ~ in_fields E fs p i)).
    + intros i. split; [intros [Hi|Hi]; [auto|tauto]|]. intros Hi. destruct (in_fields_dec E fs p i); tauto.
    + intros B M HB HR. exact HR.
    + eapply done_imp; [eapply (done_frame C) with (m := m) (p := p) (a := a)|].
      * eapply ready_sub; [exact Hrd|]. intros i [Hi|Hi]; [auto|tauto].
      * intros i Hi [_ Hn]; auto.
      * apply (IH l Hl Hfo Hall fuel f z G p e); auto; try lia. eapply ready_sub; [exact Hrd|exact Hin].
      * cbn beta. intros B M _ _ [(R1 & R2 & R3) R4]. unfold exact. ands; auto.
        intros i Hi Hu. destruct (in_fields_dec E fs p i); [apply R2; auto|apply R4; auto].
  - (* enum *)
    intros l d vss a kk fs vs Hd Hk Hfs IH Hw [|fuel] [|f] z G p e Hf Hf' He Hrd Hal Ha; try lia.
    inversion Hw as [| | | | | |? ? ? Hl Hdo Hfo Hall|]; subst.
    change (size_of E (TEnum l d vss)) with (l_size l) in *. change (align_of E (TEnum l d vss)) with (l_align l) in *.
    rewrite (owned_enum E l d vss kk fs vs Hk). cbn [ser_data resolve]. cbn [encode resolve] in He.
    rewrite Hd, Hk in *. cbn [vdepth] in Hf, Hf'. specialize (Hfo kk fs Hk).
    assert (Hin : forall i, in_fields E fs p i -> seg p (l_size l) i) by (intros i; apply fields_inside; exact Hfo).
    eapply done_eqF with (F := fun i => in_fields E fs p i \/ (seg p (l_size l) i /\ ~ in_fields E fs p i)).
    + intros i. split; [intros [Hi|Hi]; [auto|tauto]|]. intros Hi. destruct (in_fields_dec E fs p i); tauto.
    + intros B M HB HR. exact HR.
    + eapply done_imp; [eapply (done_frame C) with (m := m) (p := p) (a := a)|].
      * eapply ready_sub; [exact Hrd|]. intros i [Hi|Hi]; [auto|tauto].
      * intros i Hi [_ Hn]; auto.
      * apply (IH l Hl Hfo (fun o t Ho => Hall kk fs o t Hk Ho) fuel f z G p e); auto; try lia.
        eapply ready_sub; [exact Hrd|exact Hin].
      * cbn beta. intros B M _ _ [(R1 & R2 & R3) R4]. unfold exact. ands; auto.
        intros i Hi Hu. destruct (in_fields_dec E fs p i); [apply R2; auto|apply R4; auto].
  - (* named *)
    intros id d a v Hid Hv IH Hw [|fuel] [|f] z G p e Hf Hf' He Hrd Hal Ha; try lia.
    destruct (resolve_named E HE id d Hid) as [Q1 Q2].
    assert (Hsz : size_of E (TNamed id) = size_of E d) by (unfold size_of; rewrite (named_size E HE id d Hid); reflexivity).
    assert (Hall : align_of E (TNamed id) = align_of E d) by (unfold align_of; rewrite (named_size E HE id d Hid); reflexivity).
    rewrite Hsz, Hall in *. rewrite (owned_named E HE id d v Hid).
    assert (Hs : ser_data k E m (S fuel) (TNamed id) a z = ser_data k E m (S fuel) d a z).
    { cbn [ser_data]. rewrite Q1, Q2. reflexivity. }
    rewrite Hs. apply (IH (proj1 (HE id d Hid)) (S fuel) (S f)); auto.
    cbn [encode] in He |- *. rewrite Q2. rewrite Q1 in He. exact He.
  - (* no element *)
    intros t a Hw fuel f z G p e Hf Hf' He Hrd Hal Ha. cbn [length for_elems flat_map enc_elems] in *.
    inversion He; subst e. eapply done_ret; [exact Hrd|]. intros B M Hcp. apply exact_nothing. exact Hcp.
  - (* element *)
    intros t a v vs Hv IH1 Hvs IH2 Hw fuel f z G p e Hf Hf' He Hrd Hal Ha.
    cbn [map] in Hf, Hf'. rewrite list_max_cons in Hf, Hf'.
    assert (Hlen : size_of E t * N.of_nat (length (v :: vs)) = size_of E t + size_of E t * N.of_nat (length vs)).
    { cbn [length]. rewrite Nat2N.inj_succ, N.mul_succ_r. lia. }
    cbn [length for_elems flat_map enc_elems] in *.
    apply then_inv in He. destruct He as (e1 & e2 & He1 & He2 & ->).
    assert (Hend : e_end e1 = end_pos (zpos z) (owned E t v)).
    { destruct (encode_some k E m HE H t a v Hv f p (zpos z) ltac:(lia)) as (e' & X1 & X2).
      rewrite He1 in X1. inversion X1; subst. exact (proj1 X2). }
    assert (HF : forall i, (seg p (size_of E t) i \/ seg (p + size_of E t) (size_of E t * N.of_nat (length vs)) i) <->
                           seg p (size_of E t * N.of_nat (S (length vs))) i).
    { intros i. rewrite Hlen. unfold seg. lia. }
    eapply done_eqF; [exact HF| |].
    2:{ eapply (done_seq C) with (m := m) (p := p) (a := a).
        - eapply ready_eqF; [exact HF|exact Hrd].
        - intros i; unfold seg; lia.
        - apply (IH1 Hw fuel f z G p e1); auto; try lia.
          eapply ready_sub; [exact Hrd|]. intros i Hi. apply HF. left; exact Hi.
        - intros x z1 G1 _ Hrd1 _ Hz1.
          apply (IH2 Hw fuel f z1 (G ++ G1) (p + size_of E t) e2); auto; try lia.
          + rewrite Hz1, <- Hend. exact He2.
          + apply ready_shift; [exact Hrd1|]. intros i; unfold seg; lia.
          + apply N.divide_add_r; [exact Hal|]. apply (wf_good C E HE t Hw). }
    intros B M HB [X1 X2]. eapply exact_then; [|exact X1|].
    2:{ eapply (exact_shift _ p a (size_of E t)); [|exact X2]. intros i; unfold seg; lia. }
    intros i Hi. apply HF. exact Hi.
  - (* no field *)
    intros a l Hl Hfo Hall fuel f z G p e Hf Hf' He Hrd Hal Ha. cbn [for_fields owned_fields enc_fields] in *.
    inversion He; subst e. eapply done_ret; [exact Hrd|]. intros B M Hcp. apply exact_nothing. exact Hcp.
  - (* field *)
    intros off t fs a v vs Hv IH1 Hvs IH2 l Hl Hfo Hall fuel f z G p e Hf Hf' He Hrd Hal Ha.
    cbn [map] in Hf, Hf'. rewrite list_max_cons in Hf, Hf'.
    inversion Hfo as [|? ? ? Hb Ho Hao Hdis Hfo']; subst.
    assert (Hwt : wf_ty E t) by (apply (Hall off t); left; reflexivity).
    assert (HF : forall i, (seg (p + off) (size_of E t) i \/ in_fields E fs p i) <-> in_fields E ((off, t) :: fs) p i).
    { intros i. split.
      - intros [Hi|(o & u & H1 & H2)]; [exists off, t; split; [left; reflexivity|exact Hi]|].
        exists o, u. split; [right; exact H1|exact H2].
      - intros (o & u & [Heq|H1] & H2); [inversion Heq; subst; left; exact H2|right; exists o, u; auto]. }
    cbn [for_fields owned_fields enc_fields] in *.
    apply then_inv in He. destruct He as (e1 & e2 & He1 & He2 & ->).
    assert (Hend : e_end e1 = end_pos (zpos z) (owned E t v)).
    { destruct (encode_some k E m HE H t (a + off) v Hv f (p + off) (zpos z) ltac:(lia)) as (e' & X1 & X2).
      rewrite He1 in X1. inversion X1; subst. exact (proj1 X2). }
    eapply done_eqF; [exact HF| |].
    2:{ eapply (done_seq C) with (m := m) (p := p) (a := a).
        - eapply ready_eqF; [exact HF|exact Hrd].
        - intros i Hi (o & u & H1 & H2). specialize (Hdis o u H1). unfold disjoint, seg in *. lia.
        - apply (IH1 Hwt fuel f z G (p + off) e1); auto; try lia.
          + apply ready_shift; [|intros i; unfold seg; lia].
            eapply ready_sub; [exact Hrd|]. intros i Hi. apply HF. left; exact Hi.
          + eapply align_dvd; eauto.
        - intros x z1 G1 _ Hrd1 _ Hz1.
          apply (IH2 l Hl Hfo' (fun o u Hi => Hall o u (or_intror Hi)) fuel f z1 (G ++ G1) p e2); auto; try lia.
          rewrite Hz1, <- Hend. exact He2. }
    intros B M HB [X1 X2]. eapply exact_then; [|eapply (exact_shift _ p a off); [|exact X1]|exact X2].
    + intros i Hi. apply HF. exact Hi.
    + intros i; unfold seg; lia.
Qed.

(** ** Roots *)
Definition anywhere : N -> Prop := fun _ => False.

Lemma root_covers H f t a v c e :
  repr E H m t a v -> wf_ty E t -> (vdepth v < f)%nat ->
  encode_root k E m f t a c = Some e -> covers_all e c (allocations E t v).
Proof.
  intros Hr Hw Hv He1. unfold encode_root in He1. unfold allocations.
  destruct (N.eqb_spec (size_of E t) 0) as [Hs|Hs].
  - inversion He1; subst. rewrite (proj1 (zst_value C E HE _ _ _ _ _ Hr Hw Hs)). split; reflexivity.
  - apply then_inv in He1. destruct He1 as (d1 & d2 & Hd1 & Hd2 & ->). inversion Hd1; subst d1.
    cbn [e_end] in Hd2.
    destruct (encode_some k E m HE H t a v Hr f (push_start c (layout_of E t))
                (push_end c (layout_of E t) 1) Hv) as (e' & X1 & [X2 X3]).
    rewrite Hd2 in X1. inversion X1; subst e'. split; [exact X2|].
    cbn [e_copies map app extent blocks]. rewrite X3, N.mul_1_r. reflexivity.
Qed.

Lemma all_covers H f : forall (xs : list item) c e,
  Forall (fun '(t, a, v) => (repr E H m t a v /\ wf_ty E t) /\ (vdepth v < f)%nat) xs ->
  encode_all k E m f (map it_in xs) c = Some e -> covers_all e c (all_allocations E (map it_tv xs)).
Proof.
  induction xs as [|[[t a] v] xs IH]; intros c e Hall He.
  - cbn in He. inversion He; split; reflexivity.
  - inversion Hall as [|? ? Hx0 Hys]; subst. cbn beta iota in Hx0. destruct Hx0 as [[Hr Hw] Hv].
    cbn [map it_in fst encode_all] in He.
    apply then_inv in He. destruct He as (e1 & e2 & He1 & He2 & ->).
    cbn [map all_allocations flat_map it_tv fst snd].
    apply covers_then; [eapply root_covers; eauto|apply IH; auto].
Qed.

Lemma root_enc H fuel f t a v z G e :
  input_ok E m H fuel t a v -> (vdepth v < f)%nat -> zinv k z G ->
  encode_root k E m f t a (zpos z) = Some e ->
  e_end e = end_pos (zpos z) (allocations E t v) /\
  rdone k z G (allocations E t v) (root_pos E (zpos z) t) (exact anywhere 0 0 e)
    (serialize_value k E m fuel t a z).
Proof.
  intros Hi Hf' Hz He. pose proof Hi as (Hr & Hw & Hf & Ha).
  pose proof (wf_good C E HE t Hw) as Hg.
  unfold encode_root in He. unfold allocations.
  destruct (N.eqb_spec (size_of E t) 0) as [Hs|Hs].
  - inversion He; subst e. split.
    { rewrite (proj1 (zst_value C E HE _ _ _ _ _ Hr Hw Hs)). reflexivity. }
    assert (Hi' : input_ok E m any_header fuel t a v).
    { unfold input_ok. ands; auto. eapply repr_header; [|exact Hr]. intros; exact I. }
    pose proof (root_done C HA E HE k m any_header any_header (transfers_any k) fuel t a v z G Hi' Hz) as HR.
    unfold allocations in HR. rewrite Hs in HR. cbn [N.eqb] in HR.
    eapply rdone_imp; [exact HR|]. intros B M _ _. apply exact_nothing. intros i [].
  - apply then_inv in He. destruct He as (e1 & e2 & He1 & He2 & ->). inversion He1; subst e1; clear He1.
    cbn [e_end e_copies e_patches app] in *.
    destruct (encode_some k E m HE H t a v Hr f (push_start (zpos z) (layout_of E t))
                (push_end (zpos z) (layout_of E t) 1) Hf') as (e' & X1 & X2).
    rewrite He2 in X1. inversion X1; subst e'; clear X1.
    split; [exact (proj1 X2)|].
    unfold root_pos. rewrite (proj2 (N.eqb_neq _ _) Hs).
    assert (Hnz : 0 < l_size (layout_of E t)) by (unfold size_of in Hs; lia).
    pose proof (root_general C HA k m (layout_of E t) a (ser_data k E m fuel t a) (owned E t v)
      (exact (seg (push_start (zpos z) (layout_of E t)) (l_size (layout_of E t)))
         (push_start (zpos z) (layout_of E t)) a e2) z G Hg Hnz Hz) as HR.
    eapply rdone_imp; [apply HR|].
    + intros z1 Hz1 Hrd. eapply (value_enc H t a v Hr Hw fuel f); eauto.
      * rewrite Hz1. exact He2.
      * apply (push_start_align C), Hg.
    + cbn beta. intros B M _ (R1 & R2 & R3). unfold exact. cbn [e_patches e_copies]. ands; auto.
      * intros i [].
      * intros st tp n [Heq|Hin] i Hi' Hu; [inversion Heq; subst|eapply R3; eauto].
        apply R2; auto.
Qed.

Lemma values_enc H fuel f : forall (xs : list item) z G e,
  Forall (fun '(t, a, v) => input_ok E m H fuel t a v /\ (vdepth v < f)%nat) xs -> zinv k z G ->
  encode_all k E m f (map it_in xs) (zpos z) = Some e ->
  e_end e = end_pos (zpos z) (all_allocations E (map it_tv xs)) /\
  rdone k z G (all_allocations E (map it_tv xs)) (root_positions E (zpos z) (map it_tv xs))
    (exact anywhere 0 0 e) (serialize_values k E m fuel (map it_in xs) z).
Proof.
  induction xs as [|[[t a] v] xs IH]; intros z G e Hall Hz He.
  - cbn [map serialize_values all_allocations flat_map root_positions encode_all] in *.
    inversion He; subst e. split; [reflexivity|].
    eapply rdone_imp; [apply (rdone_ret C); exact Hz|]. intros B M _ _. apply exact_nothing. intros i [].
  - inversion Hall as [|? ? Hx0 Hxs]; subst. cbn beta iota in Hx0. destruct Hx0 as [Hx Hv].
    cbn [map it_in it_tv fst snd serialize_values all_allocations flat_map root_positions encode_all] in *.
    fold (all_allocations E (map it_tv xs)) in *.
    apply then_inv in He. destruct He as (e1 & e2 & He1 & He2 & ->).
    destruct (root_enc H fuel f t a v z G e1 Hx Hv Hz He1) as [Hend1 HD1].
    cbn [e_end].
    assert (Hend2 : e_end e2 = end_pos (e_end e1) (all_allocations E (map it_tv xs))).
    { apply (all_covers H f xs); [|exact He2]. rewrite Forall_forall in Hxs |- *. intros [[t' a'] v'] Hin.
      specialize (Hxs _ Hin). cbn beta iota in Hxs |- *. destruct Hxs as [(X1 & X2 & X4) X3]. ands; assumption. }
    split; [rewrite Hend2, Hend1, end_pos_app; reflexivity|].
    eapply rdone_imp.
    + eapply (rdone_seq C); [exact Hz|exact HD1|].
      intros z1 G1 Hz1 Hp1.
      destruct (IH z1 (G ++ G1) e2 Hxs Hz1) as [_ HI].
      { rewrite Hp1, <- Hend1. exact He2. }
      rewrite Hp1 in HI.
      rewrite <- (app_nil_r (all_allocations E (map it_tv xs))).
      eapply (rdone_seq C); [exact Hz1|exact HI|].
      intros z2 G2 Hz2 _. apply (rdone_ret C); exact Hz2.
    + cbv beta. intros B M HB (R1 & R2 & _). eapply exact_then; [|exact R1|exact R2]. intros i [].
Qed.

Lemma encode_all_some H f : forall (xs : list item) c,
  Forall (fun '(t, a, v) => repr E H m t a v /\ (vdepth v < f)%nat) xs ->
  exists e, encode_all k E m f (map it_in xs) c = Some e.
Proof.
  induction xs as [|[[t a] v] xs IH]; intros c Hall; cbn [map it_in fst encode_all]; [eexists; reflexivity|].
  inversion Hall as [|? ? Hx0 Hxs]; subst. cbn beta iota in Hx0. destruct Hx0 as [Hr Hv].
  assert (H1 : exists e, encode_root k E m f t a c = Some e).
  { unfold encode_root. destruct (size_of E t =? 0); [eexists; reflexivity|].
    destruct (encode_some k E m HE H t a v Hr f (push_start c (layout_of E t))
                (push_end c (layout_of E t) 1) Hv) as (e' & X1 & _).
    eexists. eapply then_some; [reflexivity|exact X1]. }
  destruct H1 as [e1 He1]. destruct (IH (e_end e1) Hxs) as [e2 He2].
  eexists. eapply then_some; eassumption.
Qed.

(** What [exact] says of every position. *)
Lemma exact_byte e B M i : exact anywhere 0 0 e B M -> specified e i = true -> M (B + i) = byte_at m B e i.
Proof.
  intros (R1 & _ & R3) Hs. unfold byte_at.
  destruct (find (patch_at i) (e_patches e)) as [[q w]|] eqn:Ef.
  - apply find_some in Ef. destruct Ef as [Hin Hc]. unfold patch_at in Hc; cbn [fst] in Hc.
    rewrite <- (R1 q w Hin (i - q)) by lia. f_equal. lia.
  - assert (Hu : unpatched e i).
    { intros q w Hin Hc. pose proof (find_none _ _ Ef (q, w) Hin) as Hn. unfold patch_at in Hn; cbn [fst] in Hn. lia. }
    destruct (find (copy_at i) (e_copies e)) as [[[st tp] n]|] eqn:Eg.
    + apply find_some in Eg. destruct Eg as [Hin Hc]. unfold copy_at in Hc.
      apply (R3 st tp n Hin i); [unfold seg; lia|exact Hu].
    + exfalso. unfold specified in Hs. apply orb_true_iff in Hs.
      destruct Hs as [Hs|Hs]; apply existsb_exists in Hs; destruct Hs as (x & Hin & Hc).
      * rewrite (find_none _ _ Ef x Hin) in Hc. discriminate.
      * rewrite (find_none _ _ Eg x Hin) in Hc. discriminate.
Qed.

(** The output of a run, as the memory at [base]. *)
Definition at_base (base : N) (w : sw) : mem := fun x => s_buf (sw_s w) (x - base).

Theorem serialize_all_exact H fuel f xs w rs z e :
  storage_ok w ->
  Forall (fun '(t, a, v) => input_ok E m H fuel t a v /\ (vdepth v < f)%nat) xs ->
  encode_all k E m f (map it_in xs) (s_pos (sw_s w)) = Some e ->
  serialize_all k E m fuel (map it_in xs) (from_storage w) = Ok rs z ->
  rs = root_positions E (s_pos (sw_s w)) (map it_tv xs) /\
  s_pos (sw_s (z_sw z)) = e_end e /\ storage_ok (z_sw z) /\
  (0 < s_cap (sw_s (z_sw z)) ->
   exact anywhere 0 0 e (out_base k (z_sw z)) (at_base (out_base k (z_sw z)) (z_sw z))).
Proof.
  intros Hok Hall He Hs. cfg. pose proof (from_storage_inv k w Hok) as Hz.
  destruct (values_enc H fuel f xs (from_storage w) [] e Hall Hz He) as [Hend HV].
  unfold serialize_all, bind in Hs.
  destruct (serialize_values k E m fuel (map it_in xs) (from_storage w)) as [rs1 z1|e1 z1| | |]; try discriminate.
  cbn [rdone app] in HV. destruct HV as (G & -> & V1 & V2 & V3 & V4 & V5 & V6 & V7 & V8 & V9).
  cbn [from_storage z_sw] in *.
  pose proof (zinv_ok _ _ _ V1) as Hok1.
  assert (Hne : k = Complete -> 0 < s_cap (sw_s (z_sw z1)) \/ G = []).
  { intros _. destruct G as [|[q t] G]; [auto|left].
    destruct (V5 q t (or_introl eq_refl)). pose proof (ok_pos_le _ Hok1). lia. }
  destruct (finalize_eq C k z1 G V1 Hne) as (z' & Ef & Z1 & Z2 & Z3 & Z4 & Z5 & Z6 & Z7).
  rewrite Ef in Hs. inversion Hs; subst rs z; clear Hs.
  ands; auto; [congruence|].
  rewrite Z2. intros Hc0.
  destruct Hok1 as (O1 & O2 & O3 & O4 & O5 & O6). destruct (O6 Hc0) as (P1 & P2 & P3).
  assert (Hb : out_base k (z_sw z') = final_base k z1).
  { unfold out_base, final_base. rewrite Z3. reflexivity. }
  rewrite Hb. apply V9.
  - unfold final_base. destruct k; try apply N.divide_0_r.
    eapply N.divide_trans; [apply (c_MVA_dvd_SA C)|exact P2].
  - unfold final_base. destruct k; lia.
  - intros j [[]|Hj]. unfold at_base. rewrite Z7. f_equal. lia.
Qed.

Theorem serialize_all_enc H fuel f xs w rs z e :
  storage_ok w ->
  Forall (fun '(t, a, v) => input_ok E m H fuel t a v /\ (vdepth v < f)%nat) xs ->
  encode_all k E m f (map it_in xs) (s_pos (sw_s w)) = Some e ->
  serialize_all k E m fuel (map it_in xs) (from_storage w) = Ok rs z ->
  rs = root_positions E (s_pos (sw_s w)) (map it_tv xs) /\
  s_pos (sw_s (z_sw z)) = e_end e /\
  forall i, i < s_pos (sw_s (z_sw z)) -> specified e i = true ->
    s_buf (sw_s (z_sw z)) i = byte_at m (out_base k (z_sw z)) e i.
Proof.
  intros Hok Hall He Hs.
  destruct (serialize_all_exact H fuel f xs w rs z e Hok Hall He Hs) as (R1 & R2 & R0 & R3).
  ands; auto. intros i Hi Hsp. pose proof (ok_pos_le _ R0). specialize (R3 ltac:(lia)).
  rewrite <- (exact_byte e _ _ i R3 Hsp). unfold at_base. f_equal. lia.
Qed.

End Cfg.
End EncodeFacts.
