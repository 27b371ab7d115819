(** * ReactFacts: the output of implementations that use the positions they are given (as GenClientFacts.v). *)
From Verif Require Import Base Types Storage Serializer Serialize Spec ArithFacts StorageFacts StorageHist MemFacts TypeFacts
  SerFacts SerMain SerValue SerRoot SerProps Client ClientSpec ClientFacts
  GenStorage GenSpec GenFacts GenSerializer GenSerSpec GenSerFacts GenSerMain GenSerValue GenSerRoot GenClient GenClientSpec GenClientFacts GenSession React.
From Coq Require Import ZifyBool ZifyNat ZifyN.
Local Open Scope N_scope.

Section ReactFacts.
Context {P : Params}.
Context {St : Type}.
Variable R : ra_impl St.
Hypothesis C : cfg_ok.
Variable inv : St -> Prop.
Variable contents : St -> mem.
Variable empties : bool.
Hypothesis K : keeps_contract (r_st R) inv contents empties.
Hypothesis KP : reserve_keeps_pos (r_st R) inv.
Context {UP : Prop}.
Variable E : tenv.
Hypothesis HE : wf_env E.
Variable m : mem.
Variable fuel : nat.

Ltac cfg :=
  pose proof (c_SA_pos C); pose proof (c_MVA_pos C); pose proof (c_VA_pos C);
  pose proof (c_VA_MVA C); pose proof (c_MVA_SA C); pose proof (c_MAXC C);
  pose proof (c_MVA_le_MAXC C); pose proof (c_sum C); pose proof (c_umod C);
  pose proof (c_SA_lt_imax C); pose proof (pW_vals (c_machine C)).

Notation I := (r_st R).
Notation gpos z := (i_pos (r_st R) (gz_st z)).
Notation gbuf z := (contents (gz_st z)).
Notation ginv := (GenSerFacts.ginv R inv contents).
Notation gdone := (GenSerFacts.gdone R inv contents (UP := UP)).
Notation gstop := (GenSerFacts.gstop R inv (UP := UP)).
Notation gat := (GenSerFacts.gat R inv contents).
Notation grdone := (GenSerRoot.grdone R inv contents (UP := UP)).
Notation tF := (ClientFacts.tF E).
Notation tFs := (ClientFacts.tFs E).
Notation roots_pos := (GenClientSpec.roots_pos E).
Notation roots_end := (GenClientSpec.roots_end E).

Variable k : kind.
Hypothesis HS : storage_for k R inv contents.
Notation calls_from := (React.calls_from E).
Notation roots_from := (React.roots_from E).

(** What a push returns. *)
Lemma push_slice_answer l tp n z x z' : GenSpec.ready I inv (gz_st z) -> slice_ok l tp n -> plain_slice l n = true ->
  glift (g_push_slice I l n (mem_from m tp)) z = Ok x z' -> x = slice_pos (gpos z) l.
Proof.
  intros Hok (Hl & Hle & _) Hpl H. unfold slice_pos, plain_slice in *. destruct (N.eqb_spec (l_size l) 0) as [E0|E0].
  - rewrite (glift_eq _ z 0 (gz_st z)) in H by (apply g_push_zst; exact E0). congruence.
  - pose proof (g_push_spec C R inv contents empties K KP (gz_st z) l n (mem_from m tp) Hok Hl ltac:(lia) ltac:(cbn in Hpl; lia) Hle) as HP.
    unfold glift in H. destruct (g_push_slice I l n (mem_from m tp) (gz_st z)); try discriminate. destruct HP as (-> & _). congruence.
Qed.
Lemma pps_answer l tp n ad process z x z' : GenSpec.ready I inv (gz_st z) -> slice_ok l tp n -> plain_slice l n = true ->
  g_push_and_process_slice R k (slice_at m l tp n) ad process z = Ok x z' -> x = slice_pos (gpos z) l.
Proof.
  intros Hok Hl Hpl H. destruct k; cbn [g_push_and_process_slice slice_at sl_lay sl_len sl_data sl_addr] in H; unfold g_push_raw_slice in H; cbn [slice_at sl_lay sl_len sl_data sl_addr] in H.
  all: unfold bind, g_get_map, gets in H.
  all: destruct (glift (g_push_slice I l n (mem_from m tp)) z) as [q z1| | | |] eqn:Ep; try discriminate.
  all: apply (push_slice_answer l tp n z q z1 Hok Hl Hpl) in Ep; subst q.
  - destruct (process z1); try discriminate. unfold ret in H. congruence.
  - destruct (g_set_map _ z1) as [? z2| | | |]; try discriminate. destruct (process z2) as [? z3| | | |]; try discriminate.
    destruct (g_set_map _ z3); try discriminate. unfold ret in H. congruence.
  - destruct (pos_for_addr _ ad z1) as [q z2| | | |]; try discriminate. destruct (g_overwrite_ptr R PtrOffset q _ z2) as [? z3| | | |]; try discriminate.
    destruct (g_set_map _ z3) as [? z4| | | |]; try discriminate. destruct (process z4) as [? z5| | | |]; try discriminate.
    destruct (g_set_map _ z5); try discriminate. unfold ret in H. congruence.
  - destruct (pos_for_addr _ ad z1) as [q z2| | | |]; try discriminate. destruct (g_overwrite_ptr R Complete q _ z2) as [? z3| | | |]; try discriminate.
    destruct (g_set_map _ z3) as [? z4| | | |]; try discriminate. destruct (process z4) as [? z5| | | |]; try discriminate.
    destruct (g_set_map _ z5); try discriminate. unfold ret in H. congruence.
Qed.
Lemma addr_ok {A} a off (f : addr -> M (gz St) A) z x z' : bind (addr_from_ref_offset k a off) f z = Ok x z' -> exists ad, f ad z = Ok x z'.
Proof.
  unfold bind. destruct (addr_from_ref_offset k a off z) as [ad z1| | | |] eqn:Ea; try discriminate. intros H. exists ad.
  assert (z1 = z) as <-; [|exact H]. unfold addr_from_ref_offset in Ea. destruct (tracking k).
  - unfold bind in Ea. unfold add_u in Ea. destruct (_ <? _); [unfold ret in Ea; cbn in Ea; congruence|]. destruct (_ : bool) in Ea; unfold panics, ret in Ea; cbn in Ea; try discriminate; congruence.
  - unfold ret in Ea. congruence.
Qed.
Lemma call_answer size al a s z x z' : GenSpec.ready I inv (gz_st z) -> step_ok E m fuel size al a s -> proper empties s ->
  r_call R k E m fuel a s z = Ok x z' -> x = answer (gpos z) s.
Proof.
  intros Hok Hs Hp H. destruct Hs; cbn [r_call answer proper] in *; try (unfold bind in H at 1; match type of H with match ?o with _ => _ end = _ => destruct o; try discriminate end; unfold ret in H; congruence).
  - apply addr_ok in H. destruct H as [ad H]. eapply pps_answer; [exact Hok|eassumption|apply Hp|exact H].
  - apply addr_ok in H. destruct H as [ad H]. rewrite g_ser_push_slice_eq in H. eapply pps_answer; eauto.
  - unfold g_push_raw_slice, slice_at in H. cbn [sl_lay sl_len sl_data] in H. eapply push_slice_answer; eauto.
Qed.
(** It is the call of GenClient.v. *)
Lemma call_run a s z : g_run_step R k E m fuel a s z = bind (r_call R k E m fuel a s) (fun _ => ret tt) z.
Proof.
  destruct s as [off l tp n body|off l tp n|l tp n|off l data|off t v|o|].
  - rewrite g_run_push. cbn [r_call]. unfold bind at 1 3. unfold bind at 2. destruct (addr_from_ref_offset k a off z); reflexivity.
  - cbn [r_call g_run_step]. unfold bind at 1 3. unfold bind at 2. destruct (addr_from_ref_offset k a off z); reflexivity.
  - reflexivity.
  - cbn [r_call]. unfold bind at 1 2. destruct (g_run_step R k E m fuel a (SOver off l data) z) as [[] ?| | | |]; reflexivity.
  - cbn [r_call]. unfold bind at 1 2. destruct (g_run_step R k E m fuel a (SField off t v) z) as [[] ?| | | |]; reflexivity.
  - cbn [r_call]. unfold bind at 1 2. destruct (g_run_step R k E m fuel a (SStore o) z) as [[] ?| | | |]; reflexivity.
  - reflexivity.
Qed.
Lemma gdone_unvoid {A} z G F ps X (f : M (gz St) A) : gdone k z G F ps X (bind f (fun _ => ret tt) z) -> gdone k z G F ps X (f z).
Proof. unfold bind. destruct (f z); auto. Qed.

Definition r_goal (p : reacts) : Prop := forall size al a z G pos,
  let ss := calls_from (gpos z) p in
  steps_ok E m fuel size al a ss -> Forall (proper empties) ss -> (existsb may_panic ss = true -> UP) ->
  enclosing size al a pos -> gat k z G (tFs pos ss) m pos a ->
  gdone k z G (tFs pos ss) (flat_map (step_allocs E) ss) (fun B M => images k E m M B pos a (gpos z) ss) (r_run R k E m fuel a p z).

(** A whole region: the bytes no call is for are kept. *)
Lemma r_region_done p size al a z G pos :
  let ss := calls_from (gpos z) p in
  r_goal p -> steps_ok E m fuel size al a ss -> Forall (proper empties) ss -> (existsb may_panic ss = true -> UP) -> enclosing size al a pos ->
  gat k z G (seg pos size) m pos a ->
  gdone k z G (seg pos size) (flat_map (step_allocs E) ss)
    (fun B M => region k E m M B pos a size (gpos z) ss) (r_run R k E m fuel a p z).
Proof.
  intros ss Hs Hss Hpl Hup He Hr. cfg. pose proof (touched_inside E m fuel _ _ _ _ Hss) as Hin.
  assert (Hsub : forall i, tFs pos ss i -> seg pos size i).
  { intros i (s & Hi & Ht). apply tF_touched in Ht. destruct Ht as [Hp Ht].
    pose proof (Hin s _ Hi Ht). unfold seg. lia. }
  eapply (gdone_eqF R inv contents k z G (fun i => tFs pos ss i \/ (seg pos size i /\ ~ tFs pos ss i))).
  3:{ eapply (gdone_frame C R inv contents empties K k z G (tFs pos ss) (fun i => seg pos size i /\ ~ tFs pos ss i)).
      - eapply gat_sub; [exact Hr|]. intros i [Hi|[Hi _]]; auto.
      - intros i Hi [_ Hn]. auto.
      - apply (Hs size al a z G pos Hss Hpl Hup He). eapply gat_sub; [exact Hr|exact Hsub]. }
  - intros i. destruct (tFs_dec E pos ss i) as [Ht|Ht]; split; intros Hx; try tauto. destruct Hx; [auto|tauto].
  - intros B M HB [HI HC]. constructor; [|exact HI].
    intros i Hi Hno. specialize (HC (pos + i)). rewrite HC.
    + f_equal. lia.
    + split; [unfold seg; lia|]. intros (s & Hs1 & Hs2). apply tF_touched in Hs2.
      destruct Hs2 as [_ Hs2]. replace (pos + i - pos) with i in Hs2 by lia. apply (Hno s Hs1 Hs2).
Qed.

(** A call, then the others. *)
Lemma r_then size al a s (f : M (gz St) N) next z G pos :
  let ss := calls_from (step_end E (gpos z) s) (next (answer (gpos z) s)) in
  r_goal (next (answer (gpos z) s)) ->
  step_ok E m fuel size al a s -> (forall s' i, In s' ss -> touched E s i -> ~ touched E s' i) -> steps_ok E m fuel size al a ss ->
  Forall (proper empties) ss -> (existsb may_panic ss = true -> UP) -> enclosing size al a pos ->
  gat k z G (tFs pos (s :: ss)) m pos a ->
  (gat k z G (tF pos s) m pos a -> gdone k z G (tF pos s) (step_allocs E s) (fun B M => image k E m M B pos a (gpos z) s) (f z)) ->
  (forall x z', f z = Ok x z' -> x = answer (gpos z) s) ->
  gdone k z G (tFs pos (s :: ss)) (flat_map (step_allocs E) (s :: ss)) (fun B M => images k E m M B pos a (gpos z) (s :: ss))
    (bind f (fun x => r_run R k E m fuel a (next x)) z).
Proof.
  intros ss IH Hs Hd Hss Hp2 Hup He Hr Hf Hx. cfg. cbn [flat_map].
  eapply (gdone_eqF R inv contents k z G (fun i => tF pos s i \/ tFs pos ss i) _ _
            (fun B M => image k E m M B pos a (gpos z) s /\
               images k E m M B pos a (step_end E (gpos z) s) ss)).
  - intros i. split.
    + intros [Hi|(s' & Hin & Hi)]; [exists s|exists s']; split; auto; [left; reflexivity|right; exact Hin].
    + intros (s' & [<-|Hin] & Hi); [left; exact Hi|right; exists s'; auto].
  - intros B M _ [X1 X2]. constructor; assumption.
  - eapply (gdone_seq C R inv contents k z G (tF pos s) (tFs pos ss) _ _ _ _ m pos a).
    + eapply gat_sub; [exact Hr|]. intros i [Hi|(s' & Hin & Hi)];
        [exists s|exists s']; split; auto; [left; reflexivity|right; exact Hin].
    + intros i Hi (s' & Hin & Hi'). apply tF_touched in Hi, Hi'.
      apply (Hd s' (i - pos) Hin); tauto.
    + apply Hf. eapply gat_sub; [exact Hr|].
      intros i Hi. exists s. split; [left; reflexivity|exact Hi].
    + intros x z1 G1 Hfx Hr1 _ Hp1'. rewrite (Hx _ _ Hfx).
      assert (HVA : (VA | gpos z)) by apply Hr.
      rewrite (step_allocs_end C E m fuel _ _ _ _ Hs) in Hp1' by exact HVA.
      unfold ss in *. rewrite <- Hp1' in *. apply (IH size al a z1 (G ++ G1) pos); auto.
Qed.

Lemma r_all_goals : forall p, r_goal p.
Proof.
  cfg. induction p as [|next IH|s next IH|off l tp n body IHb next IH]; intros size al a z G pos ss Hss Hpl Hup He Hr; cbn [React.calls_from r_run] in *.
  - (* no more calls *) eapply gdone_ret; eauto. intros B M _. constructor.
  - (* pos() *) unfold bind at 1, gets. apply (IH (gpos z) size al a z G pos); auto.
  - (* a call *)
    subst ss. inversion Hss as [|? ? ? ? ? Hs Hd Hss']; subst. inversion Hpl as [|? ? Hp1 Hp2]; subst. cbn [existsb] in Hup.
    eapply (r_then size al a s); eauto.
    + intros Hm. apply Hup. apply Bool.orb_true_iff. right. exact Hm.
    + intros Hg. apply gdone_unvoid. rewrite <- call_run.
      pose proof (g_all_goals R C inv contents empties K KP (UP := UP) E HE m fuel k HS size al a [s]
        (OKS_cons _ _ _ _ _ _ s [] Hs (fun s' i f => match f with end) (OKS_nil _ _ _ _ _ _))) as HA.
      unfold g_steps_goal in HA. specialize (HA ltac:(constructor; auto) ltac:(cbn [existsb]; intros Hm; apply Hup; rewrite Bool.orb_false_r in Hm; rewrite Hm; reflexivity) z G pos He).
      assert (HE1 : forall i, tFs pos [s] i <-> tF pos s i).
      { intros i. split; [intros (s' & [<-|[]] & Hi); exact Hi|intros Hi; exists s; split; [left; reflexivity|exact Hi]]. }
      specialize (HA ltac:(eapply gat_sub; [exact Hg|apply HE1])).
      apply (gdone_eqF R inv contents k z G _ (tF pos s) _ _ (fun B M => image k E m M B pos a (gpos z) s)) in HA.
      * cbn [flat_map] in HA. rewrite app_nil_r in HA. cbn [g_run_steps] in HA. unfold bind in HA.
        destruct (g_run_step R k E m fuel a s z); exact HA.
      * exact HE1.
      * intros B M _ HI. inversion HI; assumption.
    + intros x z' Hx. eapply call_answer; eauto. apply (ginv_ok R inv contents k z G), Hr.
  - (* a push with a closure *)
    subst ss. inversion Hss as [|? ? ? ? ? Hs Hd Hss']; subst. inversion Hpl as [|? ? Hp1 Hp2]; subst. cbn [existsb] in Hup.
    inversion Hs as [? ? ? ? ? ? ? ? Hoff Hpo Hpa Hsl Hb| | | | | |]; subst.
    set (s := SPush off l tp n (calls_from (slice_end (gpos z) l n) body)) in *.
    destruct Hp1 as [Hq1 Hq2]. apply proper_all in Hq2. pose proof He as (Ep & El & Ed & Eu).
    assert (Hub : existsb may_panic (calls_from (slice_end (gpos z) l n) body) = true -> UP) by (intros Hm; apply Hup; apply Bool.orb_true_iff; left; exact Hm).
    rewrite g_addr_bind by lia.
    eapply (r_then size al a s (g_push_and_process_slice R k (slice_at m l tp n) (addr_of k (a + off)) (r_run R k E m fuel tp body))); eauto.
    + intros Hm. apply Hup. apply Bool.orb_true_iff. right. exact Hm.
    + intros Hg. change (tF pos s) with (seg (pos + off) pW) in *.
      eapply gdone_imp.
      * unfold s. cbn [step_allocs].
        eapply (g_push_done R C inv contents empties K KP m k HS size al a off l tp n z G pos (r_run R k E m fuel tp body) _
                (fun B M => region k E m M B (slice_pos (gpos z) l) tp (l_size l * n) (slice_end (gpos z) l n) (calls_from (slice_end (gpos z) l n) body)));
          try eassumption.
        intros z1 G1 Hz1 Hr1. rewrite <- Hz1. rewrite <- Hz1 in Hb, Hq2, Hub.
        eapply r_region_done; [exact IHb|exact Hb|exact Hq2|exact Hub| |exact Hr1].
        destruct Hsl as (Hl & _ & Hum). unfold enclosing. ands; auto; try apply Hl.
        apply (slice_pos_align C), Hl.
      * cbn beta. intros B M _ _ [H1' H2']. constructor; assumption.
    + intros x z' Hx. eapply pps_answer; [apply (ginv_ok R inv contents k z G), Hr| | |exact Hx]; assumption.
Qed.
(** ** The root *)
Lemma r_impl_done l a p0 z G : let ss := calls_from (push_end (gpos z) l 1) p0 in
  Forall (proper empties) ss -> (existsb may_panic ss = true -> UP) ->
  good_layout l -> 0 < l_size l -> a + l_size l <= umod ->
  steps_ok E m fuel (l_size l) (l_align l) a ss -> ginv k z G ->
  grdone k z G ((l, 1) :: flat_map (step_allocs E) ss) (push_start (gpos z) l)
    (fun B M => region k E m M B (push_start (gpos z) l) a (l_size l) (push_end (gpos z) l 1) ss)
    (g_serialize_value_with R k (slice_at m l a 1) (r_run R k E m fuel a p0) z).
Proof.
  intros ss Hpl Hup Hg Hnz Ha Hss Hz. cfg.
  pose proof (ginv_ok R inv contents _ _ _ Hz) as Hok.
  pose proof (ready_le R inv contents empties K _ Hok) as [Hple Hcle].
  pose proof (g_push_spec C R inv contents empties K KP (gz_st z) l 1 (mem_from m a) Hok Hg ltac:(lia) ltac:(lia)) as HP.
  rewrite N.mul_1_r in HP. specialize (HP ltac:(apply Hg)).
  set (st := push_start (gpos z) l) in *.
  set (X := fun B M => region k E m M B st a (l_size l) (push_end (gpos z) l 1) ss).
  pose proof (push_end_ge C (gpos z) l 1) as Hpe. fold st in Hpe. rewrite N.mul_1_r in Hpe.
  pose proof (push_start_ge C (gpos z) l (proj1 Hg)) as Hst. fold st in Hst.
  assert (Hpush : forall (f : N -> M (gz St) N),
    (forall z1, GenSpec.ready I inv (gz_st z1) -> gpos z1 = push_end (gpos z) l 1 -> push_end (gpos z) l 1 <= MAXC ->
       (forall i, i < gpos z -> gbuf z1 i = gbuf z i) ->
       (forall i, i < l_size l -> gbuf z1 (st + i) = m (a + i)) ->
       gz_ptrs z1 = gz_ptrs z ->
       grdone k z G ((l, 1) :: flat_map (step_allocs E) ss) st X (f st z1)) ->
    grdone k z G ((l, 1) :: flat_map (step_allocs E) ss) st X (bind (glift (g_push_slice I l 1 (mem_from m a))) f z)).
  { intros f Hcont. unfold bind, glift.
    destruct (g_push_slice I l 1 (mem_from m a) (gz_st z)) as [p w1|e w1| | |] eqn:Ep; auto.
    - destruct HP as (-> & P2 & P3 & P4 & P5 & P6). apply Hcont; auto.
    - destruct HP as (P1 & P2 & P3 & P4). cbn. ands; auto.
      + left. eapply refused_wider; [exact P1|lia|]. cbn [end_pos]. apply (end_pos_ge C).
      + rewrite P3. exact Hst.
      + exists []. rewrite app_nil_r. split; [|intros q t' []].
        apply (ginv_push R inv contents k z G w1 Hz P2); [rewrite P3; exact Hst|exact P4]. }
  assert (Hgo : forall z1, GenSpec.ready I inv (gz_st z1) -> gpos z1 = push_end (gpos z) l 1 -> push_end (gpos z) l 1 <= MAXC ->
       (forall i, i < gpos z -> gbuf z1 i = gbuf z i) ->
       (forall i, i < l_size l -> gbuf z1 (st + i) = m (a + i)) ->
       gz_ptrs z1 = gz_ptrs z ->
       (tracking k = true -> gz_map z1 = mkMap a st) ->
       grdone k z G ((l, 1) :: flat_map (step_allocs E) ss) st X ((r_run R k E m fuel a p0 ;;; ret st) z1)).
  { intros z1 D1 D2 D3 D4 D5 D8 D9.
    assert (Hcp : forall i, seg st (l_size l) i -> gpos z <= i /\ i < gpos z1 /\ gbuf z1 i = m (a + (i - st))).
    { intros i Hi. unfold seg in Hi. ands; try lia.
      replace i with (st + (i - st)) at 1 by lia. apply D5. lia. }
    assert (Hz1 : ginv k z1 G).
    { pose proof (ginv_push R inv contents k z G (gz_st z1) Hz D1 ltac:(lia) D4) as Hzi.
      destruct z1 as [s1 m1 p1]. cbn in *. subst p1.
      apply (ginv_map R inv contents k (mkGZ s1 (gz_map z) (gz_ptrs z)) G m1 Hzi). }
    assert (Hrd : gat k z1 G (seg st (l_size l)) m st a).
    { unfold GenSerFacts.gat. ands; auto.
      - intros i Hi. destruct (Hcp i Hi) as (F1 & F2 & F3). unfold seg in Hi. ands; auto; lia.
      - intros q t' Hq' i Hi1 Hi2 Hs. destruct (Hcp i Hs) as (F1 & _).
        destruct Hz as (_ & Hzq & _). destruct (Hzq q t' Hq'). lia.
      - intros Hk. rewrite (D9 Hk). cbn. lia. }
    pose proof (r_region_done p0 (l_size l) (l_align l) a z1 G st (r_all_goals p0)) as HD. cbv zeta in HD. rewrite D2 in HD.
    specialize (HD Hss Hpl Hup ltac:(unfold enclosing; ands; auto; try apply Hg; apply (push_start_align C), Hg) Hrd).
    fold ss in HD. fold X in HD.
    unfold bind. destruct (r_run R k E m fuel a p0 z1) as [u z2|e z2| | |]; auto.
    - cbn in HD. destruct HD as (G' & J1 & J2 & J3 & J4 & J5 & J6 & J7 & J10).
      cbn. exists G'. ands; auto; try lia.
      + rewrite J3, D2. reflexivity.
      + intros q t' Hq'. destruct (J6 q t' Hq') as [Hi|Hi]; [|lia].
        destruct (Hcp q (Hi q ltac:(lia) ltac:(lia))) as (F1 & _).
        destruct (Hcp (q + pW - 1) (Hi (q + pW - 1) ltac:(lia) ltac:(lia))) as (_ & F2 & _). lia.
      + intros i Hi. rewrite J7; [apply D4; exact Hi|lia|].
        intros Hs. destruct (Hcp i Hs). lia.
      + intros B M HB Hle Hfit. apply J10; auto.
        intros i Hi. apply Hfit. right.
        destruct Hi as [Hi|Hi]; [destruct (Hcp i Hi); lia|lia].
    - cbn in HD |- *. destruct HD as (B2 & B3 & B5 & B6 & G' & B7 & B8). ands; auto; try lia.
      + eapply gstop_wider; [exact B2|lia|]. cbn [end_pos]. rewrite D2. lia.
      + intros i Hi. rewrite B6; [apply D4; exact Hi|lia|].
        intros Hs. destruct (Hcp i Hs). lia.
      + exists G'. split; [exact B7|]. intros q t' Hq'. destruct (B8 q t' Hq') as [Hi|Hi]; [|lia].
        destruct (Hcp q (Hi q ltac:(lia) ltac:(lia))) as (F1 & _). lia. }
  unfold g_serialize_value_with, g_push_raw_slice.
  cbn [sl_lay sl_len sl_data slice_at sl_addr].
  clear HS. destruct k; apply Hpush; intros z1 D1 D2 D3 D4 D5 D8.
  + apply Hgo; auto. discriminate.
  + erewrite bind_ok by reflexivity. apply Hgo; auto.
  + erewrite bind_ok by reflexivity. apply Hgo; auto.
  + erewrite bind_ok by reflexivity. apply Hgo; auto.
Qed.


Notation regions := (GenClientSpec.regions k E m).
Lemma r_roots_done : forall xs z G, let rs := roots_from (gpos z) xs in
  Forall (root_in E m fuel) rs -> Forall (root_proper empties) rs ->
  Forall (fun r => existsb may_panic (snd r) = true -> UP) rs -> ginv k z G ->
  grdone k z G (flat_map (root_allocs E) rs) (roots_pos (gpos z) rs)
    (fun B M => regions M B (gpos z) rs) (r_values R k E m fuel xs z).
Proof.
  induction xs as [|[[l a] p] xs IH]; intros z G rs Hall Hpl Hup Hz.
  - cbn. exists []. rewrite app_nil_r. pose proof (ready_le R inv contents empties K _ (ginv_ok R inv contents _ _ _ Hz)).
    ands; auto; try lia. intros q t [].
  - subst rs. cbn [React.roots_from] in *. set (ss := calls_from (push_end (gpos z) l 1) p) in *.
    set (rs := roots_from (steps_end E (push_end (gpos z) l 1) ss) xs) in *.
    inversion Hall as [|? ? Hx Hxs]; subst. destruct Hx as (X1 & X2 & X3 & X4).
    inversion Hpl as [|? ? Hy Hys]; subst. inversion Hup as [|? ? Hu Hus]; subst.
    cbn [r_values flat_map GenClientSpec.roots_pos].
    eapply grdone_imp.
    + eapply grdone_seq; [exact C|exact Hz|apply r_impl_done; eauto|].
      intros z1 G1 Hz1 Hp1. cbn [root_allocs end_pos] in Hp1. fold ss in Hp1.
      rewrite (steps_allocs_end C E m fuel _ _ _ _ X4 (push_end (gpos z) l 1) (push_end_VA _ _ _)) in Hp1.
      pose proof (IH z1 (G ++ G1)) as HI. cbv zeta in HI. rewrite Hp1 in HI. fold rs in HI. specialize (HI Hxs Hys Hus Hz1).
      rewrite <- (app_nil_r (flat_map (root_allocs E) rs)).
      eapply grdone_seq; [exact C|exact Hz1|exact HI|].
      intros z2 G2 Hz2 _. apply (grdone_ret R C inv contents empties K k z2 _ _ Hz2).
    + cbv beta. intros B M HB (R1 & R2 & _). cbn [GenClientSpec.regions]. auto.
Qed.
Lemma r_all_spec xs s : let rs := roots_from (i_pos I s) xs in
  ~ UP -> GenSpec.ready I inv s ->
  Forall (root_in E m fuel) rs -> Forall (root_proper empties) rs -> Forall (fun r => existsb may_panic (snd r) = false) rs ->
  match r_all R k E m fuel xs (g_from_storage s) with
  | Ok ps z =>
      let s' := gz_st z in
      let B := g_final_base R k s' in
      ps = roots_pos (i_pos I s) rs /\
      i_pos I s' = roots_end (i_pos I s) rs /\
      GenSpec.ready I inv s' /\
      (forall i, i < i_pos I s -> contents s' i = contents s i) /\
      regions (g_out_mem I contents B s') B (i_pos I s) rs
  | Panic e z =>
      refused_within I inv (i_pos I s) (roots_end (i_pos I s) rs) e /\
      GenSpec.ready I inv (gz_st z) /\ i_pos I s <= gpos z /\
      (forall i, i < i_pos I s -> gbuf z i = contents s i)
  | Abort => True
  | UB | OutOfFuel => False
  end.
Proof.
  intros rs NUP Hok Hall Hpl Hno. cfg.
  assert (Hup : Forall (fun r => existsb may_panic (snd r) = true -> UP) rs).
  { eapply Forall_impl; [|exact Hno]. intros r Hr Hx. rewrite Hr in Hx. discriminate. }
  pose proof (g_from_storage_inv R inv contents k s Hok) as Hz.
  pose proof (r_roots_done xs (g_from_storage s) [] Hall Hpl Hup Hz) as HV.
  cbv zeta in HV. change (gpos (g_from_storage s)) with (i_pos I s) in HV. fold rs in HV. clearbody rs.
  pose proof (roots_end_allocs C E m fuel rs Hall (i_pos I s) (proj2 Hok)) as Hend.
  unfold r_all, bind.
  destruct (r_values R k E m fuel xs (g_from_storage s)) as [ps z1|e z1| | |]; auto.
  2:{ cbn in HV. destruct HV as ([V1|[V1 _]] & V2 & V3 & V4 & _); [|contradiction].
      cbn [g_from_storage gz_st] in *. rewrite Hend in V1. ands; auto. }
  cbn [GenSerRoot.grdone app] in HV. destruct HV as (G & -> & V1 & V2 & V3 & V4 & V5 & V6 & V9).
  cbn [g_from_storage gz_st] in *.
  pose proof (ginv_ok R inv contents _ _ _ V1) as Hok1.
  destruct (ready_le R inv contents empties K _ Hok1) as [Hpc Hcm].
  destruct (g_finalize_eq R C inv contents empties K k z1 G HS V1) as (z' & -> & Z1 & Z3 & Z6 & Z7).
  assert (Hp0 : rs <> [] -> 0 < gpos z1).
  { intros Hne. rewrite V2. destruct rs as [|[[l a] ss] rs0]; [congruence|].
    inversion Hall as [|? ? Hx _]; subst. destruct Hx as (X1 & X2 & _).
    cbn [flat_map root_allocs app end_pos].
    pose proof (push_start_ge C (i_pos I s) l (proj1 X1)). pose proof (push_end_ge C (i_pos I s) l 1).
    pose proof (end_pos_ge C (push_end (i_pos I s) l 1) (flat_map (step_allocs E) ss ++ flat_map (root_allocs E) rs0)). lia. }
  cbn [ret]. cbv zeta. ands.
  - reflexivity.
  - congruence.
  - exact Z6.
  - intros i Hi. rewrite Z7 by lia. rewrite overlay_none; [apply V6; exact Hi|].
    intros q t Hq. destruct (V5 q t Hq). unfold covers; cbn. lia.
  - assert (Hb : g_final_base R k (gz_st z') = g_final_base R k (gz_st z1)).
    { unfold g_final_base. destruct k; auto. }
    rewrite Hb. assert (Hd : rs = [] \/ rs <> []) by (clear; destruct rs; [left; reflexivity|right; discriminate]).
    destruct Hd as [Hd|Hne]; [rewrite Hd; exact Logic.I|]. specialize (Hp0 Hne). apply V9.
    + unfold g_final_base. clear - HS Hok1 Hpc Hp0 C. destruct k; try apply N.divide_0_r.
      destruct HS as (_ & Hct & _). destruct (Hct (gz_st z1) (proj1 Hok1) ltac:(lia)) as (P1 & P2 & P3).
      eapply N.divide_trans; [apply (c_MVA_dvd_SA C)|exact P2].
    + unfold g_final_base. destruct k; try lia.
      destruct HS as (_ & Hct & _). destruct (Hct (gz_st z1) (proj1 Hok1) ltac:(lia)) as (P1 & P2 & P3). lia.
    + intros i [[]|Hi]. unfold g_out_mem. rewrite Z1.
      set (b := g_final_base R k (gz_st z1)) in *.
      rewrite (proj2 (N.leb_le b (b + i))) by lia.
      rewrite (proj2 (N.ltb_lt (b + i) _)) by lia.
      cbn [andb]. replace (b + i - b) with i by lia. apply Z7. lia.
Qed.

End ReactFacts.

(** ** Sessions *)
(** The calls such an implementation makes keep to the rules, from whatever position it starts. *)
Definition rules_for {P : Params} (E : tenv) (m : mem) (fuel : nat) (empties : bool) (x : layout * N * reacts) : Prop :=
  forall b, b <= MAXC -> root_in E m fuel (root_at E x b) /\ root_proper empties (root_at E x b).
Section ReactSession.
Context {P : Params}.
Context {St : Type}.
Variable R : ra_impl St.
Hypothesis C : cfg_ok.
Variable inv : St -> Prop.
Variable contents : St -> mem.
Variable empties : bool.
Hypothesis K : keeps_contract (r_st R) inv contents empties.
Hypothesis KP : reserve_keeps_pos (r_st R) inv.
Variable E : tenv.
Hypothesis HE : wf_env E.
Variable m : mem.
Variable fuel : nat.
Variable k : kind.
Hypothesis HS : storage_for k R inv contents.

Ltac cfg :=
  pose proof (c_SA_pos C); pose proof (c_MVA_pos C); pose proof (c_VA_pos C);
  pose proof (c_VA_MVA C); pose proof (c_MVA_SA C); pose proof (c_MAXC C);
  pose proof (c_MVA_le_MAXC C); pose proof (c_sum C); pose proof (c_umod C);
  pose proof (c_SA_lt_imax C); pose proof (pW_vals (c_machine C)).

Notation I := (r_st R).
Notation gpos z := (i_pos (r_st R) (gz_st z)).
Notation gbuf z := (contents (gz_st z)).
Notation ginv := (GenSerFacts.ginv R inv contents).

Notation calls_from := (React.calls_from E).
Lemma r_attempts_done : forall xs z G,
  Forall (rules_for E m fuel empties) xs -> ginv k z G ->
  match r_attempt_all R k E m fuel xs z with
  | Ok outs z' => exists G', ginv k z' (G ++ G') /\ gpos z <= gpos z' /\
      (forall q t, In (q, t) G' -> gpos z <= q) /\
      (forall i, i < gpos z -> gbuf z' i = gbuf z i) /\
      (forall B M, (MVA | B) -> B + gpos z' <= umod -> gfits_mem R contents z z' (G ++ G') (fun _ => False) B M ->
         g_attempts k E m I inv M B (gpos z) (roots_at E xs outs) outs (gpos z')) /\
      length outs = length xs /\ Forall (fun o => fst o <= gpos z') outs
  | Abort => True
  | _ => False
  end.
Proof.
  induction xs as [|[[l a] p0] xs IH]; intros z G Hall Hz; cfg.
  - cbn. exists []. rewrite app_nil_r. ands; auto; try lia.
    + intros q t [].
    + intros. constructor.
  - inversion Hall as [|? ? Hx Hxs]; subst. 
    pose proof (ready_le R inv contents empties K _ (ginv_ok R inv contents _ _ _ Hz)) as [Hl1 Hl2].
    destruct (Hx (gpos z) ltac:(lia)) as [Hx' Hy]. cbn [root_at] in Hx', Hy. set (ss := calls_from (push_end (gpos z) l 1) p0) in *.
    destruct Hx' as (X1 & X2 & X3 & X4). unfold root_proper in Hy. cbn [snd] in Hy.
    cbn [r_attempt_all].
    assert (Hb : forall A (f : N -> M (gz St) A), bind (gets (fun z => i_pos I (gz_st z))) f z = f (gpos z) z) by reflexivity.
    rewrite Hb. clear Hb.
    pose proof (r_impl_done (UP := existsb may_panic ss = true) R C inv contents empties K KP E HE m fuel k HS l a p0 z G
                  Hy (fun x => x) X1 X2 X3 X4 Hz) as HD. cbv zeta in HD. fold ss in HD.
    pose proof (steps_allocs_end C E m fuel _ _ _ _ X4 (push_end (gpos z) l 1) (push_end_VA _ _ _)) as Hend.
    unfold bind, g_catch.
    destruct (g_serialize_value_with R k (slice_at m l a 1) (r_run R k E m fuel a p0) z) as [p z1|e z1| | |]; auto.
    + cbn [grdone] in HD. destruct HD as (G1 & -> & I1 & I3 & I4 & I5 & I6 & I7 & I10).
      specialize (IH z1 (G ++ G1) Hxs I1).
      destruct (r_attempt_all R k E m fuel xs z1) as [outs z2|e z2| | |]; auto.
      destruct IH as (G2 & J1 & J2 & J3 & J4 & J6 & J7 & J8). cbn [ret].
      exists (G1 ++ G2). rewrite app_assoc. ands; auto; try (cbn [length]; lia); [| |  |constructor; [cbn [fst]; lia|exact J8]].
      * intros q t Hin. apply in_app_or in Hin. destruct Hin as [Hin|Hin].
        -- destruct (I6 q t Hin). lia.
        -- pose proof (J3 q t Hin). lia.
      * intros i Hi. rewrite J4 by lia. apply I7; lia.
      * intros B' M HB Hle Hfit. change (roots_at E ((l, a, p0) :: xs) ((gpos z, Some (push_start (gpos z) l)) :: outs)) with ((l, a, ss) :: roots_at E xs outs). apply GA_some.
        -- apply I10; [exact HB|lia|]. intros i [[]|Hi].
           rewrite Hfit by (right; lia).
           rewrite overlay_app_r.
           ++ apply overlay_buf. apply J4; lia.
           ++ intros q t Hin. destruct (covers i (q, t)) eqn:Ec; [|reflexivity].
              apply covers_true in Ec. exfalso. pose proof (J3 q t Hin). lia.
        -- cbn [end_pos] in I3. rewrite <- Hend, <- I3. apply J6; [exact HB|lia|]. intros i [[]|Hi]. apply Hfit. right; lia.
    + cbn [grdone] in HD. destruct HD as (D1 & D2 & D4 & D5 & G1 & D6 & D7).
      specialize (IH z1 (G ++ G1) Hxs D6).
      destruct (r_attempt_all R k E m fuel xs z1) as [outs z2|e2 z2| | |]; auto.
      destruct IH as (G2 & J1 & J2 & J3 & J4 & J6 & J7 & J8). cbn [ret].
      exists (G1 ++ G2). rewrite app_assoc. ands; auto; try (cbn [length]; lia); [| |  |constructor; [cbn [fst]; lia|exact J8]].
      * intros q t Hin. apply in_app_or in Hin. destruct Hin as [Hin|Hin].
        -- pose proof (D7 q t Hin). lia.
        -- pose proof (J3 q t Hin). lia.
      * intros i Hi. rewrite J4 by lia. apply D5; lia.
      * intros B' M HB Hle Hfit. change (roots_at E ((l, a, p0) :: xs) ((gpos z, None) :: outs)) with ((l, a, ss) :: roots_at E xs outs). apply GA_none with (b' := gpos z1); [|lia|].
        -- destruct D1 as [D1|[D1 _]]; [right; exists e; rewrite <- Hend; exact D1|left; exact D1].
        -- apply J6; [exact HB|lia|]. intros i [[]|Hi]. apply Hfit. right; lia.
Qed.


Lemma roots_at_in xs outs : Forall (rules_for E m fuel empties) xs -> Forall (fun o => fst o <= MAXC) outs ->
  Forall (root_in E m fuel) (roots_at E xs outs).
Proof.
  intros H. revert outs. induction H as [|x xs Hx H IH]; intros [|o outs] Ho; try constructor.
  - inversion Ho; subst. apply Hx. assumption.
  - inversion Ho; subst. apply IH. assumption.
Qed.
Theorem r_session_spec xs s :
  GenSpec.ready I inv s -> Forall (rules_for E m fuel empties) xs ->
  match r_session R k E m fuel xs (g_from_storage s) with
  | Ok outs z =>
      let s' := gz_st z in
      let B := g_final_base R k s' in
      GenSpec.ready I inv s' /\ i_pos I s <= i_pos I s' /\
      (forall i, i < i_pos I s -> contents s' i = contents s i) /\
      g_attempts k E m I inv (g_out_mem I contents B s') B (i_pos I s) (roots_at E xs outs) outs (i_pos I s') /\ length outs = length xs
  | Abort => True
  | _ => False
  end.
Proof.
  intros Hok Hall. cfg.
  pose proof (g_from_storage_inv R inv contents k s Hok) as Hz.
  pose proof (r_attempts_done xs (g_from_storage s) [] Hall Hz) as HV.
  unfold r_session, bind.
  destruct (r_attempt_all R k E m fuel xs (g_from_storage s)) as [ps z1|e z1| | |]; auto.
  cbn [app] in HV. destruct HV as (G & V1 & V2 & V5 & V6 & V9 & V10 & V11).
  cbn [g_from_storage gz_st] in *.
  pose proof (ginv_ok R inv contents _ _ _ V1) as Hok1.
  destruct (ready_le R inv contents empties K _ Hok1) as [Hpc Hcm].
  destruct (g_finalize_eq R C inv contents empties K k z1 G HS V1) as (z' & -> & Z1 & Z3 & Z6 & Z7).
  cbn [ret]. cbv zeta. rewrite Z1. ands; auto.
  - intros i Hi. rewrite Z7 by lia. rewrite overlay_none; [apply V6; exact Hi|].
    intros q t Hq. pose proof (V5 q t Hq). unfold covers; cbn. lia.
  - assert (Hb : g_final_base R k (gz_st z') = g_final_base R k (gz_st z1)).
    { unfold g_final_base. destruct k; auto. }
    rewrite Hb. destruct (N.eq_dec (gpos z1) 0) as [Hp0|Hp0].
    + (* nothing was written: the base does not matter *)
      rewrite Hp0 in *. apply (g_attempts_nothing R C inv E m fuel k (fun _ => None) 0); auto; [apply roots_at_in; [exact Hall|eapply Forall_impl; [|exact V11]; cbv beta; intros o Ho; lia]|]. apply V9; [apply N.divide_0_r|lia|].
      intros i [[]|Hi]. cbn in Hi. lia.
    + apply V9.
      * unfold g_final_base. clear - HS Hok1 Hpc Hp0 C. destruct k; try apply N.divide_0_r.
        destruct HS as (_ & Hct & _). destruct (Hct (gz_st z1) (proj1 Hok1) ltac:(lia)) as (P1 & P2 & P3).
        eapply N.divide_trans; [apply (c_MVA_dvd_SA C)|exact P2].
      * unfold g_final_base. destruct k; try lia.
        destruct HS as (_ & Hct & _). destruct (Hct (gz_st z1) (proj1 Hok1) ltac:(lia)) as (P1 & P2 & P3). lia.
      * intros i [[]|Hi]. unfold g_out_mem. rewrite Z1. cbn [gz_st g_from_storage] in Hi.
        set (b := g_final_base R k (gz_st z1)) in *.
        rewrite (proj2 (N.leb_le b (b + i))) by lia.
        rewrite (proj2 (N.ltb_lt (b + i) _)) by lia.
        cbn [andb]. replace (b + i - b) with i by lia. apply Z7. lia.
Qed.
End ReactSession.
