(** * ReactSame: an implementation that goes on according to the positions it is given runs exactly as the one that makes the calls of
    [calls_from] without looking at them: same outcome, same state (C101). *)
From Verif Require Import Base Types Storage Serializer Serialize Spec ArithFacts StorageFacts StorageHist MemFacts TypeFacts
  SerFacts SerMain SerValue SerRoot SerProps Client ClientSpec ClientFacts
  GenStorage GenSpec GenFacts GenSerializer GenSerSpec GenSerFacts GenSerMain GenSerValue GenSerRoot GenClient GenClientSpec GenClientFacts GenSession React ReactFacts.
From Coq Require Import ZifyBool ZifyNat ZifyN.
Local Open Scope N_scope.

Section ReactSame.
Context {P : Params}.
Context {St : Type}.
Variable R : ra_impl St.
Hypothesis C : cfg_ok.
Variable inv : St -> Prop.
Variable contents : St -> mem.
Variable empties : bool.
Hypothesis K : keeps_contract (r_st R) inv contents empties.
Hypothesis KP : reserve_keeps_pos (r_st R) inv.
Variable E : tenv.
Hypothesis HE : wf_env E.
Variable m : mem.
Variable fuel : nat.

Ltac cfg :=
  pose proof (c_SA_pos C); pose proof (c_MVA_pos C); pose proof (c_VA_pos C);
  pose proof (c_VA_MVA C); pose proof (c_MVA_SA C); pose proof (c_MAXC C);
  pose proof (c_MVA_le_MAXC C); pose proof (c_sum C); pose proof (c_umod C);
  pose proof (pW_vals (c_machine C)).

Notation I := (r_st R).
Notation gpos z := (i_pos (r_st R) (gz_st z)).
Notation gbuf z := (contents (gz_st z)).
Notation ginv := (GenSerFacts.ginv R inv contents).
Notation gdone := (GenSerFacts.gdone R inv contents (UP := True)).
Notation gat := (GenSerFacts.gat R inv contents).
Notation grdone := (GenSerRoot.grdone R inv contents (UP := True)).
Notation tF := (ClientFacts.tF E).
Notation tFs := (ClientFacts.tFs E).
Variable k : kind.
Hypothesis HS : storage_for k R inv contents.
Notation calls_from := (React.calls_from E).
Notation roots_from := (React.roots_from E).

(** What is left to do is still to be done after what was done (as in gdone_seq). *)
Lemma gat_next z G F1 F2 ps1 (R1 : N -> mem -> Prop) p a {A} (x : A) z1 :
  gat k z G (fun i => F1 i \/ F2 i) m p a -> (forall i, F1 i -> ~ F2 i) ->
  gdone k z G F1 ps1 R1 (Ok x z1) ->
  exists G1, gat k z1 (G ++ G1) F2 m p a /\ gpos z1 = end_pos (gpos z) ps1.
Proof.
  intros (Hz & Hcp & Hnp & Hmap) Hdis H1. cfg. cbn in H1.
  destruct H1 as (G1 & I1 & I2 & I3 & I4 & I5 & I6 & I7 & I10). exists G1. split; [|exact I3].
  unfold GenSerFacts.gat. ands; auto.
  - intros i HF. destruct (Hcp i (or_intror HF)) as (C1 & C2 & C3). ands; [lia|lia|].
    rewrite I7; [exact C3|lia|]. intros HF1. apply (Hdis i HF1 HF).
  - intros q t Hin i Hi1 Hi2 HF. apply in_app_or in Hin. destruct Hin as [Hin|Hin].
    + eapply Hnp; eauto.
    + destruct (I6 q t Hin) as [Hx|[Hx1 Hx2]].
      * apply (Hdis i); auto.
      * destruct (Hcp i (or_intror HF)) as (C1 & C2 & C3). lia.
  - rewrite I2. exact Hmap.
Qed.

(** Two closures that do the same wherever a push can run them. *)
Lemma g_alloc_same z G l n ap pp tp (process process' : M (gz St) unit) :
  let st := push_start (gpos z) l in
  gat k z G (seg pp pW) m pp ap ->
  good_layout l -> 0 < l_size l -> 0 < n -> l_size l * n <= imax ->
  pW <= MVA -> (pW | pp) ->
  (forall z1 G1, gpos z1 = push_end (gpos z) l n ->
     gat k z1 G1 (seg st (l_size l * n)) m st tp -> process z1 = process' z1) ->
  g_push_and_process_slice R k (slice_at m l tp n) (addr_of k ap) process z =
  g_push_and_process_slice R k (slice_at m l tp n) (addr_of k ap) process' z.
Proof.
  intros st Hr Hl Hsz Hn Hle Hmv Hal Hproc. cfg.
  destruct Hr as (Hz & Hcp & Hnp & Hmap).
  pose proof (ginv_ok R inv contents k z G Hz) as Hok.
  assert (Hpp : pp + pW <= gpos z).
  { destruct (Hcp (pp + pW - 1)) as (_ & Hx & _); [unfold seg; lia|lia]. }
  pose proof (g_push_spec C R inv contents empties K KP (gz_st z) l n (mem_from m tp) Hok Hl Hsz Hn Hle) as Hps.
  assert (Hst : gpos z <= st) by (apply (push_start_ge C), Hl).
  pose proof (push_end_ge C (gpos z) l n) as Hend. fold st in Hend, Hps.
  assert (Hlt : l_size l * 1 <= l_size l * n) by (apply N.mul_le_mono_l; lia). rewrite N.mul_1_r in Hlt.
  assert (Hzin := proj1 (proj2 Hz)).
  destruct (g_push_slice I l n (mem_from m tp) (gz_st z)) as [p1 w1|e w1| | |] eqn:Ep; try contradiction.
  2,3: destruct k; cbn [g_push_and_process_slice]; unfold g_push_raw_slice, slice_at, bind, g_get_map, gets, glift;
        cbn [sl_lay sl_len sl_data]; rewrite Ep; reflexivity.
  destruct Hps as (-> & Hpos1 & Hok1 & Hmax & Hb1 & Hd1).
  set (z1 := mkGZ w1 (gz_map z) (gz_ptrs z)).
  assert (Hz1 : ginv k z1 G) by (apply (ginv_push R inv contents); auto; lia).
  assert (El : glift (g_push_slice I l n (mem_from m tp)) z = Ok st z1) by (apply glift_eq; exact Ep).
  assert (Hkk : tracking k = true \/ tracking k = false) by (destruct (tracking k); auto).
  destruct Hkk as [Hk|Hk].
  - destruct (Hmap Hk) as [Hm1 Hm2].
    destruct (g_overwrite_ptr_spec C R inv contents empties K k z1 G pp st) as (z2 & Eo & Hz2 & Z1 & Z6 & Z7);
      auto; try (subst z1; cbn; lia).
    { intros Hin. apply in_map_iff in Hin. destruct Hin as [[q t] [Hqe Hin]]. cbn in Hqe. subst q.
      apply (Hnp pp t Hin pp); [lia|lia|unfold seg; lia]. }
    assert (Heq : forall pr, g_push_and_process_slice R k (slice_at m l tp n) (addr_of k ap) pr z =
                  bind pr (fun _ => bind (g_set_map (gz_map z)) (fun _ => ret st))
                    (mkGZ (gz_st z2) (mkMap tp st) (gz_ptrs z2))).
    { intros pr. assert (Hpf : pos_for_addr (gz_map z) (ATrack ap) z1 = Ok pp z1).
      { unfold pos_for_addr. erewrite bind_ok by reflexivity.
        erewrite bind_ok by (apply sub_u_ok; exact Hm1).
        pose proof (ready_le R inv contents empties K _ Hok).
        rewrite add_u_ok by lia. rewrite <- Hm2. reflexivity. }
      unfold addr_of. rewrite Hk.
      destruct k; try discriminate; cbn [g_push_and_process_slice].
      all: erewrite bind_ok by reflexivity.
      all: erewrite bind_ok by (unfold slice_at; cbn [sl_lay sl_len sl_data]; exact El).
      all: rewrite (bind_ok _ _ _ _ _ Hpf), (bind_ok _ _ _ _ _ Eo).
      all: erewrite bind_ok by reflexivity; reflexivity. }
    rewrite !Heq. unfold bind at 1 3.
    rewrite (Hproc (mkGZ (gz_st z2) (mkMap tp st) (gz_ptrs z2)) (G ++ [(pp, st)])); [reflexivity| |].
    + cbn. rewrite Z1. exact Hpos1.
    + unfold GenSerFacts.gat. cbn [gz_st gz_map]. ands.
      * apply (ginv_map R inv contents). exact Hz2.
      * intros i [Hi1 Hi2]. ands; [exact Hi1|rewrite Z1; subst z1; cbn; lia|].
        rewrite Z7 by (subst z1; cbn; lia).
        replace i with (st + (i - st)) at 1 by lia. subst z1; cbn. rewrite Hd1 by lia. reflexivity.
      * intros q t Hin i Hi1 Hi2 [Hs1 Hs2]. apply in_app_or in Hin. destruct Hin as [Hin|[Heq'|[]]].
        -- destruct (Hzin q t Hin). lia.
        -- inversion Heq'; subst. lia.
      * intros _. cbn. lia.
  - pose proof (g_pure_no_ptrs R inv contents k z G Hk Hz) as ->.
    assert (Hrdy : forall pm, gat k (mkGZ (gz_st z1) pm (gz_ptrs z1)) [] (seg st (l_size l * n)) m st tp).
    { intros pm. unfold GenSerFacts.gat. ands.
      - apply (ginv_map R inv contents). exact Hz1.
      - intros i [Hi1 Hi2]. ands; [exact Hi1|subst z1; cbn; lia|].
        replace i with (st + (i - st)) at 1 by lia. subst z1; cbn. rewrite Hd1 by lia. reflexivity.
      - intros q t [].
      - intros; congruence. }
    destruct k; try discriminate; cbn [g_push_and_process_slice].
    + unfold g_push_raw_slice, slice_at. cbn [sl_lay sl_len sl_data].
      rewrite !(bind_ok _ _ _ _ _ El). unfold bind at 1 2.
      rewrite (Hproc z1 []); [reflexivity|exact Hpos1|apply (Hrdy (gz_map z1))].
    + unfold slice_at. cbn [sl_lay sl_len sl_data sl_addr].
      unfold bind, g_get_map, gets, g_set_map in *. rewrite El. cbn.
      pose proof (Hproc (mkGZ (gz_st z1) (mkMap tp st) (gz_ptrs z1)) [] Hpos1 (Hrdy (mkMap tp st))) as HX.
      subst z1. cbn in HX |- *. rewrite HX. reflexivity.
Qed.
Lemma g_zst_same z G l n ap pp tp (process process' : M (gz St) unit) (F : N -> Prop) :
  (forall i, ~ F i) ->
  gat k z G (seg pp pW) m pp ap ->
  l_size l = 0 -> pW <= MVA -> (pW | pp) ->
  (forall z1 G1, gpos z1 = gpos z -> gat k z1 G1 F m 0 tp -> process z1 = process' z1) ->
  g_push_and_process_slice R k (slice_at m l tp n) (addr_of k ap) process z =
  g_push_and_process_slice R k (slice_at m l tp n) (addr_of k ap) process' z.
Proof.
  intros HF0 Hr Hsz Hmv Hal Hproc. cfg.
  destruct Hr as (Hz & Hcp & Hnp & Hmap).
  pose proof (ginv_ok R inv contents _ _ _ Hz) as Hok.
  assert (Hpp : pp + pW <= gpos z).
  { destruct (Hcp (pp + pW - 1)) as (_ & Hx & _); [unfold seg; lia|lia]. }
  assert (El : glift (g_push_slice I l n (mem_from m tp)) z = Ok 0 z).
  { rewrite (glift_eq _ z 0 (gz_st z)); [destruct z; reflexivity|]. apply g_push_zst; exact Hsz. }
  assert (Hkk : tracking k = true \/ tracking k = false) by (destruct (tracking k); auto).
  destruct Hkk as [Hk|Hk].
  - destruct (Hmap Hk) as [Hm1 Hm2].
    destruct (g_overwrite_ptr_spec C R inv contents empties K k z G pp 0) as (z2 & Eo & Hz2 & Z1 & Z6 & Z7);
      auto; try lia.
    { intros Hin. apply in_map_iff in Hin. destruct Hin as [[q t] [Hqe Hin]]. cbn in Hqe. subst q.
      apply (Hnp pp t Hin pp); [lia|lia|unfold seg; lia]. }
    assert (Heq : forall pr, g_push_and_process_slice R k (slice_at m l tp n) (addr_of k ap) pr z =
                  bind pr (fun _ => bind (g_set_map (gz_map z)) (fun _ => ret 0))
                    (mkGZ (gz_st z2) (mkMap tp 0) (gz_ptrs z2))).
    { intros pr. assert (Hpf : pos_for_addr (gz_map z) (ATrack ap) z = Ok pp z).
      { unfold pos_for_addr. erewrite bind_ok by reflexivity.
        erewrite bind_ok by (apply sub_u_ok; exact Hm1).
        pose proof (ready_le R inv contents empties K _ Hok).
        rewrite add_u_ok by lia. rewrite <- Hm2. reflexivity. }
      unfold addr_of. rewrite Hk.
      destruct k; try discriminate; cbn [g_push_and_process_slice].
      all: erewrite bind_ok by reflexivity.
      all: erewrite bind_ok by (unfold slice_at; cbn [sl_lay sl_len sl_data]; exact El).
      all: rewrite (bind_ok _ _ _ _ _ Hpf), (bind_ok _ _ _ _ _ Eo).
      all: erewrite bind_ok by reflexivity; reflexivity. }
    rewrite !Heq. unfold bind at 1 3.
    rewrite (Hproc (mkGZ (gz_st z2) (mkMap tp 0) (gz_ptrs z2)) (G ++ [(pp, 0)])); [reflexivity|exact Z1|].
    unfold GenSerFacts.gat. cbn [gz_st gz_map]. ands.
    + apply (ginv_map R inv contents). exact Hz2.
    + intros i Hi. exfalso. exact (HF0 i Hi).
    + intros q t _ i _ _. apply HF0.
    + intros _. cbn. lia.
  - pose proof (g_pure_no_ptrs R inv contents k z G Hk Hz) as ->.
    assert (Hrdy : forall pm, gat k (mkGZ (gz_st z) pm (gz_ptrs z)) [] F m 0 tp).
    { intros pm. unfold GenSerFacts.gat. ands.
      - apply (ginv_map R inv contents). destruct z; exact Hz.
      - intros i Hi. exfalso. exact (HF0 i Hi).
      - intros q t [].
      - intros; congruence. }
    destruct k; try discriminate; cbn [g_push_and_process_slice].
    + unfold g_push_raw_slice, slice_at. cbn [sl_lay sl_len sl_data].
      rewrite !(bind_ok _ _ _ _ _ El). unfold bind at 1 2.
      rewrite (Hproc z []); [reflexivity|reflexivity|]. specialize (Hrdy (gz_map z)). destruct z; exact Hrdy.
    + unfold slice_at. cbn [sl_lay sl_len sl_data sl_addr].
      unfold bind, g_get_map, gets, g_set_map in *. rewrite El. cbn.
      rewrite (Hproc (mkGZ (gz_st z) (mkMap tp 0) (gz_ptrs z)) []); [reflexivity|reflexivity|apply (Hrdy (mkMap tp 0))].
Qed.
Lemma g_push_same size al a off l tp n z G p (process process' : M (gz St) unit) :
  plain_slice l n = true ->
  enclosing size al a p -> off + pW <= size -> (pW | off) -> (pW | al) -> slice_ok l tp n ->
  gat k z G (seg (p + off) pW) m p a ->
  (forall z1 G1, gpos z1 = slice_end (gpos z) l n ->
     gat k z1 G1 (seg (slice_pos (gpos z) l) (l_size l * n)) m (slice_pos (gpos z) l) tp -> process z1 = process' z1) ->
  g_push_and_process_slice R k (slice_at m l tp n) (addr_of k (a + off)) process z =
  g_push_and_process_slice R k (slice_at m l tp n) (addr_of k (a + off)) process' z.
Proof.
  intros Hpl (Ep & El & Ed & Eu) Hoff Hpo Hpa (Hl & Hle & Hum) Hr Hproc. cfg.
  assert (Hr' : gat k z G (seg (p + off) pW) m (p + off) (a + off)) by (apply gat_shift; [exact Hr|unfold seg; lia]).
  assert (Hmv : pW <= MVA) by (eapply word_fits; eauto).
  assert (Hal : (pW | p + off)) by (apply N.divide_add_r; auto; eapply N.divide_trans; eassumption).
  unfold slice_pos, slice_end, plain_slice in *. destruct (N.eqb_spec (l_size l) 0) as [E0|E0].
  - apply (g_zst_same z G l n (a + off) (p + off) tp process process' (seg 0 (l_size l * n))); auto.
    intros i. unfold seg. rewrite E0. lia.
  - apply (g_alloc_same z G l n (a + off) (p + off) tp process process'); auto; [lia|cbn in Hpl; lia].
Qed.

(** The same outcome and state. *)
Definition same_goal (p : reacts) : Prop := forall size al a z G pos,
  let ss := calls_from (gpos z) p in
  steps_ok E m fuel size al a ss -> Forall (proper empties) ss ->
  enclosing size al a pos -> gat k z G (tFs pos ss) m pos a ->
  r_run R k E m fuel a p z = g_run_steps R k E m fuel a ss z.

Lemma tFs_cons pos s ss i : tFs pos (s :: ss) i <-> tF pos s i \/ tFs pos ss i.
Proof.
  split.
  - intros (s' & [<-|Hin] & Hi); [left; exact Hi|right; exists s'; auto].
  - intros [Hi|(s' & Hin & Hi)]; [exists s|exists s']; split; auto; [left; reflexivity|right; exact Hin].
Qed.
Lemma call_done size al a s z G pos :
  step_ok E m fuel size al a s -> proper empties s -> enclosing size al a pos -> gat k z G (tF pos s) m pos a ->
  gdone k z G (tF pos s) (step_allocs E s) (fun B M => image k E m M B pos a (gpos z) s) (g_run_step R k E m fuel a s z).
Proof.
  intros Hs Hp He Hg.
  pose proof (g_all_goals R C inv contents empties K KP (UP := True) E HE m fuel k HS size al a [s]
    (OKS_cons _ _ _ _ _ _ s [] Hs (fun s' i f => match f with end) (OKS_nil _ _ _ _ _ _))) as HA.
  unfold g_steps_goal in HA. specialize (HA ltac:(constructor; auto) ltac:(auto) z G pos He).
  assert (HE1 : forall i, tFs pos [s] i <-> tF pos s i).
  { intros i. rewrite tFs_cons. split; [intros [X|(s' & [] & _)]; exact X|auto]. }
  specialize (HA ltac:(eapply gat_sub; [exact Hg|apply HE1])).
  apply (gdone_eqF R inv contents k z G _ (tF pos s) _ _ (fun B M => image k E m M B pos a (gpos z) s)) in HA.
  - cbn [flat_map] in HA. rewrite app_nil_r in HA. cbn [g_run_steps] in HA. unfold bind in HA.
    destruct (g_run_step R k E m fuel a s z) as [[] ?| | | |]; exact HA.
  - exact HE1.
  - intros B M _ HI. inversion HI; assumption.
Qed.
Lemma same_then size al a s (f : M (gz St) N) next z G pos :
  let ss := calls_from (step_end E (gpos z) s) (next (answer (gpos z) s)) in
  same_goal (next (answer (gpos z) s)) ->
  step_ok E m fuel size al a s -> proper empties s ->
  (forall s' i, In s' ss -> touched E s i -> ~ touched E s' i) -> steps_ok E m fuel size al a ss ->
  Forall (proper empties) ss -> enclosing size al a pos ->
  gat k z G (tFs pos (s :: ss)) m pos a ->
  g_run_step R k E m fuel a s z = bind f (fun _ => ret tt) z ->
  (forall x z', f z = Ok x z' -> x = answer (gpos z) s) ->
  bind f (fun x => r_run R k E m fuel a (next x)) z = g_run_steps R k E m fuel a (s :: ss) z.
Proof.
  intros ss IH Hs Hp Hd Hss Hp2 He Hr Hf Hx. cfg.
  pose proof (call_done size al a s z G pos Hs Hp He ltac:(eapply gat_sub; [exact Hr|intros i Hi; apply tFs_cons; auto])) as HD.
  assert (HVA : (VA | gpos z)) by apply Hr.
  assert (Hr0 : gat k z G (fun i => tF pos s i \/ tFs pos ss i) m pos a) by (eapply gat_sub; [exact Hr|intros i Hi; apply tFs_cons; exact Hi]).
  cbn [g_run_steps]. rewrite Hf in HD. unfold bind at 2. rewrite Hf. unfold bind in HD |- *.
  destruct (f z) as [x z1|? ?| | |] eqn:Ef; auto.
  cbn [ret] in HD |- *. unfold ret in HD |- *. rewrite (Hx _ _ eq_refl).
  destruct (gat_next z G (tF pos s) (tFs pos ss) _ _ pos a tt z1 Hr0
    ltac:(intros i Hi (s' & Hin & Hi'); apply tF_touched in Hi, Hi'; apply (Hd s' (i - pos) Hin); tauto) HD) as (G1 & Hr1 & Hp1).
  rewrite (step_allocs_end C E m fuel _ _ _ _ Hs) in Hp1 by exact HVA.
  unfold ss in *. rewrite <- Hp1 in *. apply (IH size al a z1 (G ++ G1) pos); auto.
Qed.

Lemma same_region p size al a z G pos :
  let ss := calls_from (gpos z) p in
  same_goal p -> steps_ok E m fuel size al a ss -> Forall (proper empties) ss -> enclosing size al a pos ->
  gat k z G (seg pos size) m pos a ->
  r_run R k E m fuel a p z = g_run_steps R k E m fuel a ss z.
Proof.
  intros ss Hs Hss Hpl He Hr. pose proof (touched_inside E m fuel _ _ _ _ Hss) as Hin.
  apply (Hs size al a z G pos Hss Hpl He). eapply gat_sub; [exact Hr|].
  intros i (s & Hi & Ht). apply tF_touched in Ht. destruct Ht as [Hp Ht]. pose proof (Hin s _ Hi Ht). unfold seg. lia.
Qed.

Lemma r_same : forall p, same_goal p.
Proof.
  cfg. induction p as [|next IH|s next IH|off l tp n body IHb next IH]; intros size al a z G pos ss Hss Hpl He Hr; cbn [React.calls_from r_run] in *.
  - reflexivity.
  - unfold bind at 1, gets. apply (IH (gpos z) size al a z G pos); auto.
  - subst ss. inversion Hss as [|? ? ? ? ? Hs Hd Hss']; subst. inversion Hpl as [|? ? Hp1 Hp2]; subst.
    eapply (same_then size al a s); eauto.
    + apply call_run.
    + intros x z' Hx. eapply (call_answer R C inv contents empties K KP); eauto. apply (ginv_ok R inv contents k z G), Hr.
  - subst ss. inversion Hss as [|? ? ? ? ? Hs Hd Hss']; subst. inversion Hpl as [|? ? Hp1 Hp2]; subst.
    inversion Hs as [? ? ? ? ? ? ? ? Hoff Hpo Hpa Hsl Hb| | | | | |]; subst.
    set (s := SPush off l tp n (calls_from (slice_end (gpos z) l n) body)) in *.
    pose proof Hp1 as [Hq1 Hq2]. apply proper_all in Hq2. pose proof He as (Ep & El & Ed & Eu).
    rewrite g_addr_bind by lia.
    assert (Hsame : g_push_and_process_slice R k (slice_at m l tp n) (addr_of k (a + off)) (r_run R k E m fuel tp body) z =
                    g_push_and_process_slice R k (slice_at m l tp n) (addr_of k (a + off)) (g_run_steps R k E m fuel tp (calls_from (slice_end (gpos z) l n) body)) z).
    { eapply (g_push_same size al a off l tp n z G pos); try eassumption.
      - eapply gat_sub; [exact Hr|]. intros i Hi. apply tFs_cons. left. exact Hi.
      - intros z1 G1 Hz1 Hr1. rewrite <- Hz1. rewrite <- Hz1 in Hb, Hq2.
        eapply same_region; [exact IHb|exact Hb|exact Hq2| |exact Hr1].
        destruct Hsl as (Hl & _ & Hum). unfold enclosing. ands; auto; try apply Hl.
        apply (slice_pos_align C), Hl. }
    eapply (same_then size al a s (g_push_and_process_slice R k (slice_at m l tp n) (addr_of k (a + off)) (r_run R k E m fuel tp body))); eauto.
    + unfold s. rewrite g_run_push. rewrite g_addr_bind by lia. unfold bind. rewrite Hsame. reflexivity.
    + intros x z' Hx. eapply (pps_answer R C inv contents empties K KP); [exact HS|apply (ginv_ok R inv contents k z G), Hr|exact Hsl|exact Hq1|exact Hx].
Qed.

(** ** Values *)
Lemma svw_same l a p z G : let ss := calls_from (push_end (gpos z) l 1) p in
  Forall (proper empties) ss ->
  good_layout l -> 0 < l_size l -> a + l_size l <= umod ->
  steps_ok E m fuel (l_size l) (l_align l) a ss -> ginv k z G ->
  g_serialize_value_with R k (slice_at m l a 1) (r_run R k E m fuel a p) z =
  g_serialize_value_with R k (slice_at m l a 1) (g_run_steps R k E m fuel a ss) z.
Proof.
  intros ss Hpl Hg Hnz Ha Hss Hz. cfg.
  pose proof (ginv_ok R inv contents _ _ _ Hz) as Hok.
  pose proof (ready_le R inv contents empties K _ Hok) as [Hple Hcle].
  pose proof (g_push_spec C R inv contents empties K KP (gz_st z) l 1 (mem_from m a) Hok Hg ltac:(lia) ltac:(lia)) as HP.
  rewrite N.mul_1_r in HP. specialize (HP ltac:(apply Hg)).
  set (st := push_start (gpos z) l) in *.
  pose proof (push_end_ge C (gpos z) l 1) as Hpe. fold st in Hpe. rewrite N.mul_1_r in Hpe.
  pose proof (push_start_ge C (gpos z) l (proj1 Hg)) as Hst. fold st in Hst.
  assert (Hgo : forall z1, GenSpec.ready I inv (gz_st z1) -> gpos z1 = push_end (gpos z) l 1 ->
       (forall i, i < gpos z -> gbuf z1 i = gbuf z i) ->
       (forall i, i < l_size l -> gbuf z1 (st + i) = m (a + i)) ->
       gz_ptrs z1 = gz_ptrs z ->
       (tracking k = true -> gz_map z1 = mkMap a st) ->
       r_run R k E m fuel a p z1 = g_run_steps R k E m fuel a ss z1).
  { intros z1 D1 D2 D4 D5 D8 D9.
    assert (Hcp : forall i, seg st (l_size l) i -> gpos z <= i /\ i < gpos z1 /\ gbuf z1 i = m (a + (i - st))).
    { intros i Hi. unfold seg in Hi. ands; try lia.
      replace i with (st + (i - st)) at 1 by lia. apply D5. lia. }
    assert (Hz1 : ginv k z1 G).
    { pose proof (ginv_push R inv contents k z G (gz_st z1) Hz D1 ltac:(lia) D4) as Hzi.
      destruct z1 as [s1 m1 p1]. cbn in *. subst p1.
      apply (ginv_map R inv contents k (mkGZ s1 (gz_map z) (gz_ptrs z)) G m1 Hzi). }
    assert (Hrd : gat k z1 G (seg st (l_size l)) m st a).
    { unfold GenSerFacts.gat. ands; auto.
      - intros i Hi. destruct (Hcp i Hi) as (F1 & F2 & F3). unfold seg in Hi. ands; auto; lia.
      - intros q t' Hq' i Hi1 Hi2 Hs. destruct (Hcp i Hs) as (F1 & _).
        destruct Hz as (_ & Hzq & _). destruct (Hzq q t' Hq'). lia.
      - intros Hk. rewrite (D9 Hk). cbn. lia. }
    pose proof (same_region p (l_size l) (l_align l) a z1 G st) as HD. cbv zeta in HD. rewrite D2 in HD.
    apply HD; auto; [apply r_same|].
    unfold enclosing; ands; auto; try apply Hg; apply (push_start_align C), Hg. }
  unfold g_serialize_value_with, g_push_raw_slice. cbn [sl_lay sl_len sl_data slice_at sl_addr].
  unfold bind, glift, g_set_map, modify.
  clear HS. destruct k; destruct (g_push_slice I l 1 (mem_from m a) (gz_st z)) as [q w1|e w1| | |] eqn:Ep; auto;
    destruct HP as (-> & P2 & P3 & P4 & P5 & P6); cbn [gz_st gz_map gz_ptrs];
    rewrite Hgo by (cbn; auto; discriminate); reflexivity.
Qed.
Lemma values_same : forall xs z G, let rs := roots_from (gpos z) xs in
  Forall (root_in E m fuel) rs -> Forall (root_proper empties) rs -> ginv k z G ->
  r_values R k E m fuel xs z = g_client_values R k E m fuel rs z.
Proof.
  induction xs as [|[[l a] p] xs IH]; intros z G rs Hall Hpl Hz; [reflexivity|].
  subst rs. cbn [React.roots_from] in *. set (ss := calls_from (push_end (gpos z) l 1) p) in *.
  set (rs := roots_from (steps_end E (push_end (gpos z) l 1) ss) xs) in *.
  inversion Hall as [|? ? Hx Hxs]; subst. destruct Hx as (X1 & X2 & X3 & X4).
  inversion Hpl as [|? ? Hy Hys]; subst.
  cbn [r_values g_client_values]. pose proof (svw_same l a p z G Hy X1 X2 X3 X4 Hz) as HW. cbv zeta in HW. fold ss in HW.
  unfold bind. rewrite <- HW.
  pose proof (r_impl_done R C inv contents empties K KP (UP := True) E HE m fuel k HS l a p z G Hy ltac:(auto) X1 X2 X3 X4 Hz) as HD.
  destruct (g_serialize_value_with R k (slice_at m l a 1) (r_run R k E m fuel a p) z) as [x z1|? ?| | |]; auto.
  cbn in HD. destruct HD as (G' & _ & J1 & J2 & _). fold ss in J2.
  rewrite (steps_allocs_end C E m fuel _ _ _ _ X4 (push_end (gpos z) l 1) (push_end_VA _ _ _)) in J2.
  specialize (IH z1 (G ++ G')). cbv zeta in IH. rewrite J2 in IH. fold rs in IH. rewrite (IH Hxs Hys J1). reflexivity.
Qed.
Lemma all_same xs s : let rs := roots_from (i_pos I s) xs in
  GenSpec.ready I inv s -> Forall (root_in E m fuel) rs -> Forall (root_proper empties) rs ->
  r_all R k E m fuel xs (g_from_storage s) = g_client_all R k E m fuel rs (g_from_storage s).
Proof.
  intros rs Hok Hall Hpl. unfold r_all, g_client_all, bind at 1 3.
  rewrite (values_same xs (g_from_storage s) [] Hall Hpl (g_from_storage_inv R inv contents k s Hok)). reflexivity.
Qed.

(** ** Sessions *)
Lemma attempts_same : forall xs z G, Forall (rules_for E m fuel empties) xs -> ginv k z G ->
  forall outs z', r_attempt_all R k E m fuel xs z = Ok outs z' ->
  g_attempt_all R k E m fuel (roots_at E xs outs) z = Ok outs z'.
Proof.
  induction xs as [|[[l a] p] xs IH]; intros z G Hall Hz outs z' H.
  - cbn in H. unfold ret in H. injection H as <- <-. reflexivity.
  - inversion Hall as [|? ? Hx Hxs]; subst.
    pose proof (ready_le R inv contents empties K _ (ginv_ok R inv contents _ _ _ Hz)) as [Hp Hc].
    destruct (Hx (gpos z) ltac:(lia)) as [(X1 & X2 & X3 & X4) Hy].
    set (ss := calls_from (push_end (gpos z) l 1) p) in *.
    pose proof (svw_same l a p z G Hy X1 X2 X3 X4 Hz) as HW. cbv zeta in HW. fold ss in HW.
    pose proof (r_impl_done R C inv contents empties K KP (UP := True) E HE m fuel k HS l a p z G Hy ltac:(auto) X1 X2 X3 X4 Hz) as HD.
    cbn [r_attempt_all] in H. unfold bind, gets, g_catch in H.
    destruct (g_serialize_value_with R k (slice_at m l a 1) (r_run R k E m fuel a p) z) as [x z1|e z1| | |] eqn:Es; try discriminate;
      cbn [GenSerRoot.grdone] in HD.
    + destruct (r_attempt_all R k E m fuel xs z1) as [outs1 z2| | | |] eqn:Er; try discriminate. unfold ret in H. injection H as <- <-.
      destruct HD as (G' & _ & J1 & _). specialize (IH z1 (G ++ G') Hxs J1 _ _ Er).
      unfold roots_at in *. cbn [combine map fst snd root_at g_attempt_all]. fold ss. unfold bind, gets, g_catch. rewrite <- HW, IH. reflexivity.
    + destruct (r_attempt_all R k E m fuel xs z1) as [outs1 z2| | | |] eqn:Er; try discriminate. unfold ret in H. injection H as <- <-.
      destruct HD as (_ & _ & _ & _ & G' & J1 & _). specialize (IH z1 (G ++ G') Hxs J1 _ _ Er).
      unfold roots_at in *. cbn [combine map fst snd root_at g_attempt_all]. fold ss. unfold bind, gets, g_catch. rewrite <- HW, IH. reflexivity.
Qed.
Lemma session_same xs s outs z : GenSpec.ready I inv s -> Forall (rules_for E m fuel empties) xs ->
  r_session R k E m fuel xs (g_from_storage s) = Ok outs z ->
  g_session R k E m fuel (roots_at E xs outs) (g_from_storage s) = Ok outs z.
Proof.
  intros Hok Hall H. unfold r_session, bind in H.
  destruct (r_attempt_all R k E m fuel xs (g_from_storage s)) as [o1 z1| | | |] eqn:Er; try discriminate.
  destruct (g_finalize R k z1) as [u z2| | | |] eqn:Ef; try discriminate. unfold ret in H. injection H as <- <-.
  unfold g_session, bind. rewrite (attempts_same xs _ [] Hall (g_from_storage_inv R inv contents k s Hok) _ _ Er). rewrite Ef. reflexivity.
Qed.
End ReactSame.
