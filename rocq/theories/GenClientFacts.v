(** * GenClientFacts: the output of any hand-written implementation over any storage
    (as ClientFacts.v). *)
From Verif Require Import Base Types Storage Serializer Serialize Spec ArithFacts StorageFacts StorageHist MemFacts TypeFacts
  SerFacts SerMain SerValue SerRoot SerProps Client ClientSpec ClientFacts
  GenStorage GenSpec GenFacts GenSerializer GenSerSpec GenSerFacts GenSerMain GenSerValue GenSerRoot GenClient GenClientSpec.
From Coq Require Import ZifyBool ZifyNat ZifyN.
Local Open Scope N_scope.

(** Plain implementations are proper ones that do not panic. *)
Lemma plain_proper {P : Params} empties : forall s, plain s = true -> proper empties s /\ may_panic s = false.
Proof.
  fix IH 1. intros s Hp.
  assert (IHs : forall ss, forallb plain ss = true ->
    (fix all (ss : list step) : Prop := match ss with [] => True | s :: ss' => proper empties s /\ all ss' end) ss /\
    existsb may_panic ss = false).
  { clear s Hp. fix IHs 1. intros [|s ss] Hp; [split; [exact Logic.I|reflexivity]|]. cbn [forallb] in Hp.
    apply andb_prop in Hp. destruct Hp as [Hp1 Hp2]. destruct (IH s Hp1) as [A1 A2]. destruct (IHs ss Hp2) as [B1 B2].
    split; [split; assumption|]. cbn [existsb]. rewrite A2, B2. reflexivity. }
  destruct s as [off l tp n body|off l tp n|l tp n|off l data|off t v|o|]; cbn [plain] in Hp; try discriminate Hp;
    try (split; [exact Hp|reflexivity]); try (split; [exact Logic.I|reflexivity]).
  apply andb_prop in Hp. destruct Hp as [Hp1 Hp2]. destruct (IHs body Hp2) as [A1 A2]. split; [split; assumption|exact A2].
Qed.
Lemma plain_roots {P : Params} empties rs : Forall root_plain rs ->
  Forall (root_proper empties) rs /\ Forall (fun r => existsb may_panic (snd r) = false) rs.
Proof.
  intros H. split; eapply Forall_impl; try exact H; intros [[l a] ss] Hr; unfold root_plain, root_proper in *; cbn [snd] in *.
  - apply Forall_forall. intros s Hs. apply (plain_proper empties s). rewrite forallb_forall in Hr. auto.
  - clear H. induction ss as [|s ss IH]; [reflexivity|]. cbn [forallb existsb] in *. apply andb_prop in Hr. destruct Hr as [H1 H2].
    rewrite (proj2 (plain_proper empties s H1)), (IH H2). reflexivity.
Qed.

Section GenClientFacts.
Context {P : Params}.
Context {St : Type}.
Variable R : ra_impl St.
Hypothesis C : cfg_ok.
Variable inv : St -> Prop.
Variable contents : St -> mem.
Variable empties : bool.
Hypothesis K : keeps_contract (r_st R) inv contents empties.
Hypothesis KP : reserve_keeps_pos (r_st R) inv.
Context {UP : Prop}.
Variable E : tenv.
Hypothesis HE : wf_env E.
Variable m : mem.
Variable fuel : nat.

Ltac cfg :=
  pose proof (c_SA_pos C); pose proof (c_MVA_pos C); pose proof (c_VA_pos C);
  pose proof (c_VA_MVA C); pose proof (c_MVA_SA C); pose proof (c_MAXC C);
  pose proof (c_MVA_le_MAXC C); pose proof (c_sum C); pose proof (c_umod C);
  pose proof (c_SA_lt_imax C); pose proof (pW_vals (c_machine C)).

Notation I := (r_st R).
Notation gpos z := (i_pos (r_st R) (gz_st z)).
Notation gbuf z := (contents (gz_st z)).
Notation ginv := (GenSerFacts.ginv R inv contents).
Notation gdone := (GenSerFacts.gdone R inv contents (UP := UP)).
Notation gstop := (GenSerFacts.gstop R inv (UP := UP)).
Notation gat := (GenSerFacts.gat R inv contents).
Notation grdone := (GenSerRoot.grdone R inv contents (UP := UP)).
Notation tF := (ClientFacts.tF E).
Notation tFs := (ClientFacts.tFs E).
Notation roots_pos := (GenClientSpec.roots_pos E).
Notation roots_end := (GenClientSpec.roots_end E).

Lemma gdone_imp_end k z G F ps (X X' : N -> mem -> Prop) {A} (o : outcome (gz St) A) :
  gdone k z G F ps X o ->
  (forall B M, (MVA | B) -> B + end_pos (gpos z) ps <= umod -> X B M -> X' B M) -> gdone k z G F ps X' o.
Proof.
  intros H HR. destruct o as [a z'|e z'| | |]; auto; cbn in *.
  destruct H as (G' & H1 & H2 & H3 & H4 & H5 & H6 & H7 & H10).
  exists G'. ands; auto. intros. apply HR; auto. lia.
Qed.

(** ** Zero-sized slices *)
Lemma g_zst_tail k z G Gp z1 pm ap pp (F : N -> Prop) psc (Rc : N -> mem -> Prop) {A} o (o' : outcome (gz St) A) :
  (forall i, ~ F i) ->
  ginv k z1 (G ++ Gp) -> gz_map z1 = gz_map z -> gpos z1 = gpos z ->
  (forall i, i < gpos z -> ~ seg pp pW i -> gbuf z1 i = gbuf z i) ->
  (forall q t, In (q, t) Gp -> q = pp /\ t = 0) ->
  pp + pW <= gpos z ->
  (tracking k = true -> In (pp, 0) Gp) ->
  (tracking k = false -> G = [] /\ Gp = [] /\ copied m ap pp (seg pp pW) 0 (gbuf z1)) ->
  gdone k (mkGZ (gz_st z1) pm (gz_ptrs z1)) (G ++ Gp) F psc Rc o ->
  gremap z o o' ->
  gdone k z G (seg pp pW) psc
    (fun B M =>
       (tracking k = true -> word_at_is M (B + pp) B) /\
       (tracking k = false -> copied m ap pp (seg pp pW) B M) /\ Rc B M) o'.
Proof.
  intros HF0 Hz1 Hm1 Hp1 Hb1 HGp Hpp Htr Hnt Hd Hre.
  cfg.
  destruct o as [u z4|e z4| | |]; cbn in Hre; [destruct Hre as [x ->]| | | |]; subst; auto.
  - cbn in Hd. destruct Hd as (Gc & D1 & D2 & D3 & D4 & D5 & D6 & D7 & D10).
    cbn [gz_st gz_map gz_ptrs] in *. cbn. exists (Gp ++ Gc). cbn [gz_st gz_map]. rewrite app_assoc. ands; auto; try lia.
    + rewrite D3, Hp1. reflexivity.
    + intros q t Hin. apply in_app_or in Hin. destruct Hin as [Hin|Hin].
      * left. destruct (HGp q t Hin) as [-> _]. intros i; unfold seg; lia.
      * right. destruct (D6 q t Hin) as [Hx|Hx]; [|lia].
        exfalso. exact (HF0 q (Hx q ltac:(lia) ltac:(lia))).
    + intros i Hi HF. rewrite D7; [apply Hb1; auto|lia|apply HF0].
    + intros B M HB Hle Hfit.
      assert (Hzi := D1). destruct Hzi as (_ & Hin4 & Hnd & _).
      split; [|split].
      * intros Hk. pose proof (Htr Hk) as Hin.
        intros i Hi.
        rewrite <- N.add_assoc, Hfit by (left; unfold seg; lia).
        rewrite <- (N.add_0_r B) at 2.
        apply overlay_hit; auto; try lia.
        ++ intros q' t' Hin'. apply (Hin4 q' t' Hin').
        ++ apply in_or_app; left. apply in_or_app; right. exact Hin.
      * intros Hk. destruct (Hnt Hk) as (-> & -> & Hcp). intros i HF.
        rewrite Hfit by (left; exact HF).
        rewrite overlay_none.
        -- rewrite D7; [|unfold seg in HF; lia|apply HF0].
           specialize (Hcp i HF). rewrite N.add_0_l in Hcp. exact Hcp.
        -- cbn [app] in *. destruct D1 as (_ & _ & _ & _ & bs & _ & Hkd).
           intros q t Hin. destruct k; try discriminate; cbn in Hkd; rewrite Hkd in Hin; destruct Hin.
      * apply D10; auto. intros i Hi. apply Hfit. right. cbn [gz_st] in Hi |- *.
        destruct Hi as [Hi|Hi]; [exfalso; exact (HF0 i Hi)|lia].
  - cbn in Hd |- *. destruct Hd as (B2 & B3 & B5 & B6 & Gc & B7 & B8). cbn [gz_st] in *. ands; auto; try lia.
    + eapply gstop_wider; [exact B2|cbn [gz_st]; lia|]. cbn [gz_st]. rewrite Hp1. lia.
    + intros i Hi HF. rewrite B6; [apply Hb1; auto|lia|apply HF0].
    + exists (Gp ++ Gc). rewrite app_assoc. split; [exact B7|].
      intros q t Hin. apply in_app_or in Hin. destruct Hin as [Hin|Hin].
      * left. destruct (HGp q t Hin) as [-> _]. intros i; unfold seg; lia.
      * right. destruct (B8 q t Hin) as [Hx|Hx]; [|lia].
        exfalso. exact (HF0 q (Hx q ltac:(lia) ltac:(lia))).
Qed.

Lemma g_zst_done k z G l n ap pp tp (process : M (gz St) unit) (F : N -> Prop) psc (Rc : N -> mem -> Prop) :
  storage_for k R inv contents ->
  (forall i, ~ F i) ->
  gat k z G (seg pp pW) m pp ap ->
  l_size l = 0 -> pW <= MVA -> (pW | pp) ->
  (forall z1 G1, gpos z1 = gpos z -> gat k z1 G1 F m 0 tp -> gdone k z1 G1 F psc Rc (process z1)) ->
  gdone k z G (seg pp pW) psc
    (fun B M =>
       (tracking k = true -> word_at_is M (B + pp) B) /\
       (tracking k = false -> copied m ap pp (seg pp pW) B M) /\ Rc B M)
    (g_push_and_process_slice R k (slice_at m l tp n) (addr_of k ap) process z).
Proof.
  intros HS HF0 Hr Hsz Hmv Hal Hproc. cfg.
  destruct Hr as (Hz & Hcp & Hnp & Hmap).
  pose proof (ginv_ok R inv contents k z G Hz) as Hok.
  assert (Hpp : pp + pW <= gpos z).
  { destruct (Hcp (pp + pW - 1)) as (_ & Hx & _); [unfold seg; lia|lia]. }
  assert (El : glift (g_push_slice I l n (mem_from m tp)) z = Ok 0 z).
  { rewrite (glift_eq _ z 0 (gz_st z)); [destruct z; reflexivity|]. apply g_push_zst; exact Hsz. }
  assert (Hkk : tracking k = true \/ tracking k = false) by (destruct (tracking k); auto).
  destruct Hkk as [Hk|Hk].
  - (* pointer kinds *)
    destruct (Hmap Hk) as [Hm1 Hm2].
    destruct (g_overwrite_ptr_spec C R inv contents empties K k z G pp 0) as (z2 & Eo & Hz2 & Z1 & Z6 & Z7);
      auto; try lia.
    { intros Hin. apply in_map_iff in Hin. destruct Hin as [[q t] [Hqe Hin]]. cbn in Hqe. subst q.
      apply (Hnp pp t Hin pp); [lia|lia|unfold seg; lia]. }
    assert (Heq : g_push_and_process_slice R k (slice_at m l tp n) (addr_of k ap) process z =
                  bind process (fun _ => bind (g_set_map (gz_map z)) (fun _ => ret 0))
                    (mkGZ (gz_st z2) (mkMap tp 0) (gz_ptrs z2))).
    { assert (Hpf : pos_for_addr (gz_map z) (ATrack ap) z = Ok pp z).
      { unfold pos_for_addr. erewrite bind_ok by reflexivity.
        erewrite bind_ok by (apply sub_u_ok; exact Hm1).
        pose proof (ready_le R inv contents empties K _ Hok).
        rewrite add_u_ok by lia. rewrite <- Hm2. reflexivity. }
      unfold addr_of. rewrite Hk.
      destruct k; try discriminate; cbn [g_push_and_process_slice].
      all: erewrite bind_ok by reflexivity.
      all: erewrite bind_ok by (unfold slice_at; cbn [sl_lay sl_len sl_data]; exact El).
      all: rewrite (bind_ok _ _ _ _ _ Hpf), (bind_ok _ _ _ _ _ Eo).
      all: erewrite bind_ok by reflexivity; reflexivity. }
    rewrite Heq.
    set (z3 := mkGZ (gz_st z2) (mkMap tp 0) (gz_ptrs z2)).
    eapply g_zst_tail with (Gp := [(pp, 0)]) (z1 := z2) (pm := mkMap tp 0) (o := process z3); try eassumption; auto.
    + intros i Hi HF. apply Z7; [exact Hi|unfold seg in HF; lia].
    + intros q t [Heq'|[]]. inversion Heq'. auto.
    + intros _. left; reflexivity.
    + intros Hx; congruence.
    + apply Hproc; [exact Z1|]. unfold GenSerFacts.gat. subst z3. cbn [gz_st gz_map]. ands.
      * apply ginv_map. exact Hz2.
      * intros i Hi. exfalso. exact (HF0 i Hi).
      * intros q t _ i _ _. apply HF0.
      * intros _. cbn. lia.
    + unfold gremap, bind. fold z3. destruct (process z3) as [u z4|? ?| | |]; auto.
      eexists. reflexivity.
  - (* pure kinds *)
    pose proof (g_pure_no_ptrs R inv contents k z G Hk Hz) as ->.
    assert (Hcopy : copied m ap pp (seg pp pW) 0 (gbuf z)).
    { intros i HF. rewrite N.add_0_l. destruct (Hcp i HF) as (X1 & X2 & X3). exact X3. }
    assert (Hrdy : forall pm, gat k (mkGZ (gz_st z) pm (gz_ptrs z)) [] F m 0 tp).
    { intros pm. unfold GenSerFacts.gat. ands.
      - apply ginv_map. exact Hz.
      - intros i Hi. exfalso. exact (HF0 i Hi).
      - intros q t [].
      - intros; congruence. }
    assert (Hzz : z = mkGZ (gz_st z) (gz_map z) (gz_ptrs z)) by (destruct z; reflexivity).
    destruct k; try discriminate; cbn [g_push_and_process_slice].
    + unfold g_push_raw_slice, slice_at. cbn [sl_lay sl_len sl_data].
      erewrite bind_ok by exact El.
      assert (Hd : gdone PureCopy z [] F psc Rc (process z)).
      { apply Hproc; [reflexivity|]. rewrite Hzz. apply (Hrdy (gz_map z)). }
      eapply g_zst_tail with (Gp := []) (z1 := z) (pm := gz_map z) (o := process z); auto.
      * intros q t [].
      * intros Hx; discriminate.
      * unfold gremap, bind. destruct (process z) as [u z4|? ?| | |]; auto.
        exists 0. cbn in Hd. destruct Hd as (G' & _ & Hmm & _). unfold ret. f_equal.
        destruct z4; cbn in *. subst. reflexivity.
    + unfold slice_at. cbn [sl_lay sl_len sl_data sl_addr].
      erewrite bind_ok by reflexivity. erewrite bind_ok by exact El. erewrite bind_ok by reflexivity.
      set (z3 := mkGZ (gz_st z) (mkMap tp 0) (gz_ptrs z)).
      eapply g_zst_tail with (Gp := []) (z1 := z) (pm := mkMap tp 0) (o := process z3); auto.
      * intros q t [].
      * intros Hx; discriminate.
      * apply Hproc; [reflexivity|apply (Hrdy (mkMap tp 0))].
      * unfold gremap, bind. fold z3. destruct (process z3) as [u z4|? ?| | |]; auto.
        eexists. reflexivity.
Qed.

(** ** The calls *)
Variable k : kind.
Hypothesis HS : storage_for k R inv contents.

(** Pushing a slice for which no pointer is recorded. *)
Lemma g_raw_done z G l tp n :
  ginv k z G -> slice_ok l tp n -> plain_slice l n = true ->
  gdone k z G (fun _ => False) (slice_list l n)
    (fun B M => same_bytes m M B (slice_pos (gpos z) l) tp 0 (l_size l * n))
    (g_push_raw_slice R (slice_at m l tp n) z).
Proof.
  intros Hz (Hl & Hle & Hum) Hpl. cfg.
  pose proof (ginv_ok R inv contents k z G Hz) as Hok.
  pose proof (ready_le R inv contents empties K _ Hok) as [Hpc Hcm].
  unfold slice_list, slice_pos. unfold plain_slice in Hpl. destruct (N.eqb_spec (l_size l) 0) as [E0|E0].
  { unfold g_push_raw_slice, slice_at; cbn [sl_lay sl_len sl_data].
    rewrite (glift_eq _ z 0 (gz_st z)) by (apply g_push_zst; exact E0).
    replace (mkGZ (gz_st z) (gz_map z) (gz_ptrs z)) with z by (destruct z; reflexivity).
    cbn. exists []. rewrite app_nil_r.
    ands; auto; try lia.
    - intros B M _ _ _ i Hi1 Hi2. rewrite E0 in Hi2. lia. }
  assert (Hsz : 0 < l_size l) by lia. assert (Hn : 0 < n) by (cbn in Hpl; lia).
  pose proof (g_push_spec C R inv contents empties K KP (gz_st z) l n (mem_from m tp) Hok Hl Hsz Hn Hle) as Hps.
  assert (Hst : gpos z <= push_start (gpos z) l) by (apply (push_start_ge C), Hl).
  pose proof (push_end_ge C (gpos z) l n) as Hend.
  unfold g_push_raw_slice, slice_at; cbn [sl_lay sl_len sl_data]. unfold glift.
  destruct (g_push_slice I l n (mem_from m tp) (gz_st z)) as [p1 w1|e w1| | |] eqn:Ep; try contradiction; auto.
  - destruct Hps as (-> & Hpos1 & Hok1 & Hmax & Hb1 & Hd1).
    cbn. exists []. rewrite app_nil_r. cbn [gz_st gz_map gz_ptrs]. ands; auto; try lia.
    + apply ginv_push; auto. lia.
    + intros B M HB Hb Hfit i Hi1 Hi2.
      rewrite Hfit.
      2:{ right. cbn [gz_st]. lia. }
      cbn [gz_st]. rewrite overlay_none.
      * rewrite Hd1 by lia. reflexivity.
      * intros q t Hin. destruct Hz as (_ & Hzq & _). destruct (Hzq q t Hin) as (_ & Hz2 & _).
        destruct (covers (push_start (gpos z) l + i) (q, t)) eqn:Ec; auto. apply covers_true in Ec. lia.
  - destruct Hps as (Q1 & Q2 & Q3 & Q4). cbn. ands; auto; try lia.
    + left. exact Q1.
    + exists []. rewrite app_nil_r. split; [|intros q t []]. apply ginv_push; auto. lia.
Qed.

(** A storage call. *)
Lemma g_store_done z G o :
  ginv k z G -> op_in_contract empties o -> no_overflow o -> o <> OClear -> UP ->
  gdone k z G (fun _ => False) (op_allocs o)
    (fun B M => forall l n data, ClientSpec.op_data o = Some (l, n, data) ->
       forall i, i < l_size l * n -> M (B + (push_start (gpos z) l + i)) = data i)
    (g_store_call R o z).
Proof.
  intros Hz Hv Hn Hc Hup. cfg. pose proof (ginv_ok R inv contents k z G Hz) as Hok.
  assert (Hnc : not_clear o) by (destruct o; cbn; auto).
  pose proof (g_run_op_spec C I inv contents empties K (gz_st z) o Hok Hv) as HH.
  unfold g_store_call. destruct (g_run_op I o (gz_st z)) as [r w'|e w'| | |]; auto.
  - destruct HH as (Q1 & Q2 & Q3 & Q4). destruct (Q2 Hnc) as [Q5 Q6].
    specialize (Q3 Hn). destruct (Q4 KP Hn) as [Q7 Q8].
    destruct (ready_le R inv contents empties K _ Q1) as [Q9 Q10].
    cbn. exists []. rewrite app_nil_r. cbn [gz_st gz_map gz_ptrs]. ands; auto; try lia.
    + apply ginv_push; auto.
    + rewrite Q8. symmetry. apply (op_allocs_end C); [apply Hok|apply Hv|exact Hc].
    + intros B M HB Hle Hfit l n data Hdat i Hi.
      assert (Hsz : l_size l <> 0) by nia.
      assert (Hl : good_layout l).
      { destruct Hv as (Hv & _). destruct o; inversion Hdat; subst; try apply Hv. apply (u8_good C). }
      assert (Hst : gpos z <= push_start (gpos z) l) by (apply (push_start_ge C), Hl).
      assert (Hin : push_start (gpos z) l + l_size l * n <= i_pos I w' /\
                forall i, i < l_size l * n -> contents w' (push_start (gpos z) l + i) = data i).
      { subst r. destruct o; inversion Hdat; subst;
          cbn [op_pos stored GenSpec.op_data GenSpec.op_gap] in Q3;
          cbn [op_pos u8_layout l_size] in Q3;
          try (rewrite (proj2 (N.eqb_neq _ _) Hsz) in Q3);
          cbn [N.eqb] in Q3; destruct Q3 as (_ & _ & Q31 & Q32 & _); auto. }
      destruct Hin as [D1 D2]. rewrite Hfit.
      2:{ right. cbn [gz_st]. lia. }
      cbn [gz_st]. rewrite overlay_none; [apply D2; exact Hi|].
      intros q t Hin. destruct Hz as (_ & Hzq & _). destruct (Hzq q t Hin) as (_ & Hz2 & _).
      destruct (covers (push_start (gpos z) l + i) (q, t)) eqn:Ec; auto. apply covers_true in Ec. lia.
  - destruct HH as (Q1 & Q2 & Q3). cbn. ands; auto.
    + right. auto.
    + exists []. rewrite app_nil_r. split; [apply ginv_push; auto|intros q t []].
Qed.

Lemma g_run_push a off l tp n body :
  g_run_step R k E m fuel a (SPush off l tp n body) =
  (ad <- addr_from_ref_offset k a off ;;
   g_push_and_process_slice R k (slice_at m l tp n) ad (g_run_steps R k E m fuel tp body) ;;; ret tt).
Proof.
  cbn [g_run_step].
  assert (He : forall ss, (fix go (ss : list step) : M (gz St) unit :=
            match ss with [] => ret tt | s :: ss' => g_run_step R k E m fuel tp s ;;; go ss' end) ss
          = g_run_steps R k E m fuel tp ss).
  { induction ss as [|s ss IH]; cbn; [reflexivity|]. rewrite IH. reflexivity. }
  rewrite He. reflexivity.
Qed.

Lemma g_addr_bind {A} a off (f : addr -> M (gz St) A) z :
  a + off < umod -> bind (addr_from_ref_offset k a off) f z = f (addr_of k (a + off)) z.
Proof.
  intros Hlt. unfold addr_from_ref_offset, addr_of, bind.
  destruct (tracking k); [|reflexivity].
  rewrite add_u_ok by exact Hlt. reflexivity.
Qed.

Definition g_step_goal (size al a : N) (s : step) : Prop :=
  proper empties s -> (may_panic s = true -> UP) ->
  forall z G p, enclosing size al a p -> gat k z G (tF p s) m p a ->
  gdone k z G (tF p s) (step_allocs E s) (fun B M => image k E m M B p a (gpos z) s) (g_run_step R k E m fuel a s z).
Definition g_steps_goal (size al a : N) (ss : list step) : Prop :=
  Forall (proper empties) ss -> (existsb may_panic ss = true -> UP) ->
  forall z G p, enclosing size al a p -> gat k z G (tFs p ss) m p a ->
  gdone k z G (tFs p ss) (flat_map (step_allocs E) ss) (fun B M => images k E m M B p a (gpos z) ss)
    (g_run_steps R k E m fuel a ss z).

(** A whole region: the bytes no call is for are kept. *)
Lemma g_region_done size al a ss z G p :
  Forall (proper empties) ss -> (existsb may_panic ss = true -> UP) -> g_steps_goal size al a ss -> enclosing size al a p ->
  (forall s i, In s ss -> touched E s i -> i < size) ->
  gat k z G (seg p size) m p a ->
  gdone k z G (seg p size) (flat_map (step_allocs E) ss)
    (fun B M => region k E m M B p a size (gpos z) ss) (g_run_steps R k E m fuel a ss z).
Proof.
  intros Hpl Hup Hs He Hin Hr. cfg.
  assert (Hsub : forall i, tFs p ss i -> seg p size i).
  { intros i (s & Hi & Ht). apply tF_touched in Ht. destruct Ht as [Hp Ht].
    pose proof (Hin s _ Hi Ht). unfold seg. lia. }
  eapply (gdone_eqF R inv contents k z G (fun i => tFs p ss i \/ (seg p size i /\ ~ tFs p ss i))).
  3:{ eapply (gdone_frame C R inv contents empties K k z G (tFs p ss) (fun i => seg p size i /\ ~ tFs p ss i)).
      - eapply gat_sub; [exact Hr|]. intros i [Hi|[Hi _]]; auto.
      - intros i Hi [_ Hn]. auto.
      - apply (Hs Hpl Hup z G p He). eapply gat_sub; [exact Hr|exact Hsub]. }
  - intros i. destruct (tFs_dec E p ss i) as [Ht|Ht]; split; intros Hx; try tauto. destruct Hx; [auto|tauto].
  - intros B M HB [HI HC]. constructor; [|exact HI].
    intros i Hi Hno. specialize (HC (p + i)). rewrite HC.
    + f_equal. lia.
    + split; [unfold seg; lia|]. intros (s & Hs1 & Hs2). apply tF_touched in Hs2.
      destruct Hs2 as [_ Hs2]. replace (p + i - p) with i in Hs2 by lia. apply (Hno s Hs1 Hs2).
Qed.

Lemma g_push_done size al a off l tp n z G p process psc Rc :
  plain_slice l n = true ->
  enclosing size al a p -> off + pW <= size -> (pW | off) -> (pW | al) -> slice_ok l tp n ->
  gat k z G (seg (p + off) pW) m p a ->
  (forall z1 G1, gpos z1 = slice_end (gpos z) l n ->
     gat k z1 G1 (seg (slice_pos (gpos z) l) (l_size l * n)) m (slice_pos (gpos z) l) tp ->
     gdone k z1 G1 (seg (slice_pos (gpos z) l) (l_size l * n)) psc Rc (process z1)) ->
  gdone k z G (seg (p + off) pW) (slice_list l n ++ psc)
    (fun B M => points k m M B p a off l n (slice_pos (gpos z) l) /\ Rc B M)
    (g_push_and_process_slice R k (slice_at m l tp n) (addr_of k (a + off)) process z).
Proof.
  intros Hpl (Ep & El & Ed & Eu) Hoff Hpo Hpa (Hl & Hle & Hum) Hr Hproc. cfg.
  assert (Hr' : gat k z G (seg (p + off) pW) m (p + off) (a + off)) by (apply gat_shift; [exact Hr|unfold seg; lia]).
  assert (Hmv : pW <= MVA) by (eapply word_fits; eauto).
  assert (Hal : (pW | p + off)) by (apply N.divide_add_r; auto; eapply N.divide_trans; eassumption).
  assert (Hpp : p + off + pW <= gpos z).
  { destruct Hr as (_ & Hc & _). destruct (Hc (p + off + pW - 1)) as (_ & Hx & _); [unfold seg; lia|lia]. }
  unfold slice_list, slice_pos, slice_end, plain_slice in *. destruct (N.eqb_spec (l_size l) 0) as [E0|E0].
  { eapply gdone_imp_end.
    - apply (g_zst_done k z G l n (a + off) (p + off) tp process (seg 0 (l_size l * n)) psc Rc); auto.
      intros i. unfold seg. rewrite E0. lia.
    - cbn beta. intros B M HB HBe (H1' & H2' & H3'). split; [|exact H3'].
      cbn [app] in HBe. pose proof (end_pos_ge C (gpos z) psc).
      unfold points. destruct (tracking k).
      + rewrite N.add_0_r. split.
        * apply read_word_src; [lia|]. exact (H1' eq_refl).
        * intros HB0. specialize (HB0 E0). unfold valid_ref. ands; auto; [|rewrite E0; lia].
          eapply divide_trans; [|exact HB]. apply pow2_divide; [apply Hl|apply (c_MVA C)|apply Hl].
      + specialize (H2' eq_refl). intros i Hi1 Hi2. specialize (H2' (p + i)).
        rewrite H2' by (unfold seg; lia). f_equal. lia. }
  assert (Hsz : 0 < l_size l) by lia. assert (Hn : 0 < n) by (cbn in Hpl; lia).
  assert (Hnz : 0 < l_size l * n) by (apply N.mul_pos_pos; lia).
  eapply gdone_imp_end.
  - eapply (g_alloc_done R C inv contents empties K KP k z G m l n (a + off) (p + off) tp process psc Rc); auto.
  - cbn beta. intros B M HB HBe (H1' & H2' & H3'). split; [|exact H3'].
    cbn [app end_pos] in HBe. pose proof (end_pos_ge C (push_end (gpos z) l n) psc). pose proof (push_end_ge C (gpos z) l n).
    unfold points. destruct (tracking k).
    + destruct (H1' eq_refl) as [W1 W2]. split; [|intros _; exact W2].
      apply read_word_src; [|exact W1]. lia.
    + specialize (H2' eq_refl). intros i Hi1 Hi2. specialize (H2' (p + i)).
      rewrite H2' by (unfold seg; lia). f_equal. lia.
Qed.

Lemma g_overwrite_with_done p a off l data z G size al :
  enclosing size al a p ->
  good_layout l -> 0 < l_size l -> off + l_size l <= size -> (l_align l | off) -> (l_align l | al) ->
  gat k z G (seg (p + off) (l_size l)) m p a ->
  gdone k z G (seg (p + off) (l_size l)) []
    (fun B M => image k E m M B p a (gpos z) (SOver off l data))
    (g_overwrite_with k (ad <- addr_from_ref_offset k a off ;; g_overwrite R k ad l data) z).
Proof.
  intros (Ep & El & Ed & Eu) Hl Hsz Hoff Ho Ha Hr. cfg.
  assert (Hr' : gat k z G (seg (p + off) (l_size l)) m (p + off) (a + off)).
  { apply gat_shift; [exact Hr|]. unfold seg; lia. }
  assert (Hret : k <> Complete -> gdone k z G (seg (p + off) (l_size l)) []
    (fun B M => image k E m M B p a (gpos z) (SOver off l data)) (ret tt z)).
  { intros Hk. eapply gdone_ret; eauto. intros B M Hc. constructor; [intros; contradiction|].
    intros _ i Hi1 Hi2. rewrite Hc by (unfold seg; lia). f_equal. lia. }
  destruct k; cbn [g_overwrite_with]; try (apply Hret; discriminate).
  unfold addr_from_ref_offset; cbn [tracking].
  rewrite g_add_u_bind by lia.
  eapply gdone_imp.
  - eapply (g_overwrite_done R C inv contents empties K z G m l data (a + off) (p + off)); auto; [apply HS|].
    eapply align_pos; eauto. apply Hl.
  - cbn beta. intros B M _ _ Hd. constructor; [|intros X; congruence].
    intros _ i Hi. rewrite <- (Hd i Hi). f_equal. lia.
Qed.

Lemma proper_all body :
  (fix all (ss : list step) : Prop := match ss with [] => True | s :: ss' => proper empties s /\ all ss' end) body ->
  Forall (proper empties) body.
Proof. induction body as [|s ss IH]; intros H; constructor; [apply H|apply IH, H]. Qed.

Lemma g_all_goals : forall size al a ss, steps_ok E m fuel size al a ss -> g_steps_goal size al a ss.
Proof.
  cfg.
  apply (steps_ok_mut P E m fuel (fun size al a s _ => g_step_goal size al a s)
             (fun size al a ss _ => g_steps_goal size al a ss)).
  - (* push and process *)
    intros size al a off l tp n body Hoff Hpo Hpa Hsl Hb IH Hpl Hup z G p He Hr.
    destruct Hpl as [Hp1 Hp2]. apply proper_all in Hp2.
    rewrite g_run_push. destruct He as (Ep & El & Ed & Eu).
    rewrite g_addr_bind by lia. apply gdone_void.
    change (tF p (SPush off l tp n body)) with (seg (p + off) pW) in *.
    eapply gdone_imp.
    + cbn [step_allocs].
      eapply (g_push_done size al a off l tp n z G p (g_run_steps R k E m fuel tp body) _
                (fun B M => region k E m M B (slice_pos (gpos z) l) tp (l_size l * n) (slice_end (gpos z) l n) body));
        try eassumption.
      { unfold enclosing; auto. }
      intros z1 G1 Hz1 Hr1. rewrite <- Hz1.
      eapply g_region_done; [exact Hp2|exact Hup|exact IH| |eapply touched_inside; eassumption|exact Hr1].
      destruct Hsl as (Hl & _ & Hum). unfold enclosing. ands; auto; try apply Hl.
      apply (slice_pos_align C), Hl.
    + cbn beta. intros B M _ _ [H1' H2']. constructor; assumption.
  - (* plain push *)
    intros size al a off l tp n Hoff Hpo Hpa Hsl Hpl Hup z G p He Hr.
    cbn [g_run_step]. pose proof He as (Ep & El & Ed & Eu).
    rewrite g_addr_bind by lia. apply gdone_void.
    change (tF p (SPushPlain off l tp n)) with (seg (p + off) pW) in *.
    rewrite g_ser_push_slice_eq.
    eapply gdone_imp.
    + cbn [step_allocs]. rewrite <- (app_nil_r (slice_list l n)).
      eapply (g_push_done size al a off l tp n z G p (ret tt) []
                (fun B M => same_bytes m M B (slice_pos (gpos z) l) tp 0 (l_size l * n))); try eassumption.
      intros z1 G1 Hz1 Hr1. eapply gdone_ret; eauto.
      intros B M Hc i Hi1 Hi2. rewrite Hc by (unfold seg; lia). f_equal. lia.
    + cbn beta. intros B M _ _ [H1' H2']. constructor; assumption.
  - (* raw push *)
    intros size al a l tp n Hsl Hpl Hup z G p He Hr. cbn [g_run_step]. apply gdone_void.
    cbn [step_allocs]. eapply gdone_imp.
    + eapply gdone_eqF; [|intros B M _ X; exact X|apply g_raw_done; [apply Hr|exact Hsl|exact Hpl]].
      intros i. cbn. tauto.
    + cbn beta. intros B M _ _ Hs. constructor. exact Hs.
  - (* overwrite *)
    intros size al a off l data Hl Hsz Hoff Ho Ha Hpl Hup z G p He Hr.
    cbn [g_run_step step_allocs].
    eapply g_overwrite_with_done; eassumption.
  - (* field *)
    intros size al a off t v Hw HR Hf Hoff Ho Ha Hpl Hup z G p He Hr.
    cbn [g_run_step step_allocs]. destruct He as (Ep & El & Ed & Eu).
    change (tF p (SField off t v)) with (seg (p + off) (size_of E t)) in *.
    eapply gdone_imp.
    + eapply (g_value_done R C inv contents empties K KP E HE k m any_header any_header (transfers_any k) HS t (a + off) v HR Hw fuel z G (p + off) Hf).
      * apply gat_shift; [exact Hr|unfold seg; lia].
      * apply N.divide_add_r; auto. eapply N.divide_trans; eassumption.
      * lia.
    + cbn beta. intros B M _ _ (V1 & V2 & V3). constructor; auto.
      intros Hk i Hi1 Hi2. rewrite (V2 Hk) by (unfold seg; lia). f_equal. lia.
  - (* a storage call *)
    intros size al a o Hv Hn Hc Hpl Hup z G p He Hr. cbn [g_run_step step_allocs]. eapply gdone_imp.
    + eapply gdone_eqF; [|intros B M _ X; exact X|apply g_store_done; auto; apply Hr].
      intros i. cbn. tauto.
    + cbn beta. intros B M _ _ Hs. constructor. exact Hs.
  - (* the implementation panics *)
    intros size al a Hpl Hup z G p He Hr. cbn [g_run_step]. destruct Hr as (Hz & _). cbn.
    pose proof (ginv_ok R inv contents _ _ _ Hz). ands; auto; try lia.
    + right. auto.
    + exists []. rewrite app_nil_r. split; [exact Hz|intros q t []].
  - (* no more calls *)
    intros size al a _ _ z G p He Hr. cbn [g_run_steps flat_map].
    eapply gdone_ret; eauto. intros B M _. constructor.
  - (* a call, then the others *)
    intros size al a s ss Hs IH1 Hd Hss IH2 Hpl Hup z G p He Hr.
    inversion Hpl as [|? ? Hp1 Hp2]; subst. cbn [existsb] in Hup.
    cbn [g_run_steps flat_map].
    eapply (gdone_eqF R inv contents k z G (fun i => tF p s i \/ tFs p ss i) _ _
              (fun B M => image k E m M B p a (gpos z) s /\
                 images k E m M B p a (step_end E (gpos z) s) ss)).
    + intros i. split.
      * intros [Hi|(s' & Hin & Hi)]; [exists s|exists s']; split; auto; [left; reflexivity|right; exact Hin].
      * intros (s' & [<-|Hin] & Hi); [left; exact Hi|right; exists s'; auto].
    + intros B M _ [X1 X2]. constructor; assumption.
    + eapply (gdone_seq C R inv contents k z G (tF p s) (tFs p ss) _ _ _ _ m p a).
      * eapply gat_sub; [exact Hr|]. intros i [Hi|(s' & Hin & Hi)];
          [exists s|exists s']; split; auto; [left; reflexivity|right; exact Hin].
      * intros i Hi (s' & Hin & Hi'). apply tF_touched in Hi, Hi'.
        apply (Hd s' (i - p) Hin); tauto.
      * apply IH1; [exact Hp1|intros Hm; apply Hup; rewrite Hm; reflexivity|exact He|]. eapply gat_sub; [exact Hr|].
        intros i Hi. exists s. split; [left; reflexivity|exact Hi].
      * intros x z1 G1 _ Hr1 _ Hp1'.
        assert (HVA : (VA | gpos z)) by apply Hr.
        rewrite <- (step_allocs_end C E m fuel _ _ _ _ Hs) by exact HVA.
        rewrite <- Hp1'. apply IH2; auto. intros Hm. apply Hup. rewrite Hm. apply Bool.orb_true_r.
Qed.

(** ** The root *)
Lemma g_impl_done l a ss z G :
  Forall (proper empties) ss -> (existsb may_panic ss = true -> UP) ->
  good_layout l -> 0 < l_size l -> a + l_size l <= umod ->
  steps_ok E m fuel (l_size l) (l_align l) a ss -> ginv k z G ->
  grdone k z G ((l, 1) :: flat_map (step_allocs E) ss) (push_start (gpos z) l)
    (fun B M => region k E m M B (push_start (gpos z) l) a (l_size l) (push_end (gpos z) l 1) ss)
    (g_serialize_value_with R k (slice_at m l a 1) (g_run_steps R k E m fuel a ss) z).
Proof.
  intros Hpl Hup Hg Hnz Ha Hss Hz. cfg.
  pose proof (ginv_ok R inv contents _ _ _ Hz) as Hok.
  pose proof (ready_le R inv contents empties K _ Hok) as [Hple Hcle].
  pose proof (g_push_spec C R inv contents empties K KP (gz_st z) l 1 (mem_from m a) Hok Hg ltac:(lia) ltac:(lia)) as HP.
  rewrite N.mul_1_r in HP. specialize (HP ltac:(apply Hg)).
  set (st := push_start (gpos z) l) in *.
  set (X := fun B M => region k E m M B st a (l_size l) (push_end (gpos z) l 1) ss).
  pose proof (push_end_ge C (gpos z) l 1) as Hpe. fold st in Hpe. rewrite N.mul_1_r in Hpe.
  pose proof (push_start_ge C (gpos z) l (proj1 Hg)) as Hst. fold st in Hst.
  assert (Hpush : forall (f : N -> M (gz St) N),
    (forall z1, GenSpec.ready I inv (gz_st z1) -> gpos z1 = push_end (gpos z) l 1 -> push_end (gpos z) l 1 <= MAXC ->
       (forall i, i < gpos z -> gbuf z1 i = gbuf z i) ->
       (forall i, i < l_size l -> gbuf z1 (st + i) = m (a + i)) ->
       gz_ptrs z1 = gz_ptrs z ->
       grdone k z G ((l, 1) :: flat_map (step_allocs E) ss) st X (f st z1)) ->
    grdone k z G ((l, 1) :: flat_map (step_allocs E) ss) st X (bind (glift (g_push_slice I l 1 (mem_from m a))) f z)).
  { intros f Hcont. unfold bind, glift.
    destruct (g_push_slice I l 1 (mem_from m a) (gz_st z)) as [p w1|e w1| | |] eqn:Ep; auto.
    - destruct HP as (-> & P2 & P3 & P4 & P5 & P6). apply Hcont; auto.
    - destruct HP as (P1 & P2 & P3 & P4). cbn. ands; auto.
      + left. eapply refused_wider; [exact P1|lia|]. cbn [end_pos]. apply (end_pos_ge C).
      + rewrite P3. exact Hst.
      + exists []. rewrite app_nil_r. split; [|intros q t' []].
        apply (ginv_push R inv contents k z G w1 Hz P2); [rewrite P3; exact Hst|exact P4]. }
  assert (Hgo : forall z1, GenSpec.ready I inv (gz_st z1) -> gpos z1 = push_end (gpos z) l 1 -> push_end (gpos z) l 1 <= MAXC ->
       (forall i, i < gpos z -> gbuf z1 i = gbuf z i) ->
       (forall i, i < l_size l -> gbuf z1 (st + i) = m (a + i)) ->
       gz_ptrs z1 = gz_ptrs z ->
       (tracking k = true -> gz_map z1 = mkMap a st) ->
       grdone k z G ((l, 1) :: flat_map (step_allocs E) ss) st X ((g_run_steps R k E m fuel a ss ;;; ret st) z1)).
  { intros z1 D1 D2 D3 D4 D5 D8 D9.
    assert (Hcp : forall i, seg st (l_size l) i -> gpos z <= i /\ i < gpos z1 /\ gbuf z1 i = m (a + (i - st))).
    { intros i Hi. unfold seg in Hi. ands; try lia.
      replace i with (st + (i - st)) at 1 by lia. apply D5. lia. }
    assert (Hz1 : ginv k z1 G).
    { pose proof (ginv_push R inv contents k z G (gz_st z1) Hz D1 ltac:(lia) D4) as Hzi.
      destruct z1 as [s1 m1 p1]. cbn in *. subst p1.
      apply (ginv_map R inv contents k (mkGZ s1 (gz_map z) (gz_ptrs z)) G m1 Hzi). }
    assert (Hrd : gat k z1 G (seg st (l_size l)) m st a).
    { unfold GenSerFacts.gat. ands; auto.
      - intros i Hi. destruct (Hcp i Hi) as (F1 & F2 & F3). unfold seg in Hi. ands; auto; lia.
      - intros q t' Hq' i Hi1 Hi2 Hs. destruct (Hcp i Hs) as (F1 & _).
        destruct Hz as (_ & Hzq & _). destruct (Hzq q t' Hq'). lia.
      - intros Hk. rewrite (D9 Hk). cbn. lia. }
    pose proof (g_region_done (l_size l) (l_align l) a ss z1 G st Hpl Hup (g_all_goals _ _ _ _ Hss)) as HD.
    specialize (HD ltac:(unfold enclosing; ands; auto; try apply Hg; apply (push_start_align C), Hg)
                   (touched_inside E m fuel _ _ _ _ Hss) Hrd).
    rewrite D2 in HD. fold X in HD.
    unfold bind. destruct (g_run_steps R k E m fuel a ss z1) as [u z2|e z2| | |]; auto.
    - cbn in HD. destruct HD as (G' & J1 & J2 & J3 & J4 & J5 & J6 & J7 & J10).
      cbn. exists G'. ands; auto; try lia.
      + rewrite J3, D2. reflexivity.
      + intros q t' Hq'. destruct (J6 q t' Hq') as [Hi|Hi]; [|lia].
        destruct (Hcp q (Hi q ltac:(lia) ltac:(lia))) as (F1 & _).
        destruct (Hcp (q + pW - 1) (Hi (q + pW - 1) ltac:(lia) ltac:(lia))) as (_ & F2 & _). lia.
      + intros i Hi. rewrite J7; [apply D4; exact Hi|lia|].
        intros Hs. destruct (Hcp i Hs). lia.
      + intros B M HB Hle Hfit. apply J10; auto.
        intros i Hi. apply Hfit. right.
        destruct Hi as [Hi|Hi]; [destruct (Hcp i Hi); lia|lia].
    - cbn in HD |- *. destruct HD as (B2 & B3 & B5 & B6 & G' & B7 & B8). ands; auto; try lia.
      + eapply gstop_wider; [exact B2|lia|]. cbn [end_pos]. rewrite D2. lia.
      + intros i Hi. rewrite B6; [apply D4; exact Hi|lia|].
        intros Hs. destruct (Hcp i Hs). lia.
      + exists G'. split; [exact B7|]. intros q t' Hq'. destruct (B8 q t' Hq') as [Hi|Hi]; [|lia].
        destruct (Hcp q (Hi q ltac:(lia) ltac:(lia))) as (F1 & _). lia. }
  unfold g_serialize_value_with, g_push_raw_slice.
  cbn [sl_lay sl_len sl_data slice_at sl_addr].
  clear HS. destruct k; apply Hpush; intros z1 D1 D2 D3 D4 D5 D8.
  + apply Hgo; auto. discriminate.
  + erewrite bind_ok by reflexivity. apply Hgo; auto.
  + erewrite bind_ok by reflexivity. apply Hgo; auto.
  + erewrite bind_ok by reflexivity. apply Hgo; auto.
Qed.

(** ** Several values *)
Notation regions := (GenClientSpec.regions k E m).
Definition root_allocs (r : layout * N * list step) : list (layout * N) :=
  let '(l, _, ss) := r in (l, 1) :: flat_map (step_allocs E) ss.

Lemma roots_end_allocs rs : Forall (root_in E m fuel) rs ->
  forall cur, (VA | cur) -> end_pos cur (flat_map root_allocs rs) = roots_end cur rs.
Proof.
  induction 1 as [|[[l a] ss] rs Hx _ IH]; intros cur Hc; [reflexivity|].
  cbn [flat_map roots_end]. rewrite end_pos_app. destruct Hx as (X1 & X2 & X3 & X4).
  cbn [root_allocs end_pos].
  rewrite (steps_allocs_end C E m fuel _ _ _ _ X4 (push_end cur l 1) (push_end_VA _ _ _)).
  apply IH. rewrite <- (steps_allocs_end C E m fuel _ _ _ _ X4 (push_end cur l 1) (push_end_VA _ _ _)).
  apply end_pos_VA. apply push_end_VA.
Qed.

Lemma g_roots_done : forall rs z G,
  Forall (root_in E m fuel) rs -> Forall (root_proper empties) rs ->
  Forall (fun r => existsb may_panic (snd r) = true -> UP) rs -> ginv k z G ->
  grdone k z G (flat_map root_allocs rs) (roots_pos (gpos z) rs)
    (fun B M => regions M B (gpos z) rs) (g_client_values R k E m fuel rs z).
Proof.
  induction rs as [|[[l a] ss] rs IH]; intros z G Hall Hpl Hup Hz.
  - cbn. exists []. rewrite app_nil_r. pose proof (ready_le R inv contents empties K _ (ginv_ok R inv contents _ _ _ Hz)).
    ands; auto; try lia. intros q t [].
  - inversion Hall as [|? ? Hx Hxs]; subst. destruct Hx as (X1 & X2 & X3 & X4).
    inversion Hpl as [|? ? Hy Hys]; subst. inversion Hup as [|? ? Hu Hus]; subst.
    cbn [g_client_values flat_map roots_pos].
    eapply grdone_imp.
    + eapply grdone_seq; [exact C|exact Hz|apply g_impl_done; eauto|].
      intros z1 G1 Hz1 Hp1.
      pose proof (IH z1 (G ++ G1) Hxs Hys Hus Hz1) as HI. rewrite Hp1 in HI. cbn [root_allocs end_pos] in HI.
      rewrite (steps_allocs_end C E m fuel _ _ _ _ X4 (push_end (gpos z) l 1) (push_end_VA _ _ _)) in HI.
      rewrite <- (app_nil_r (flat_map root_allocs rs)).
      eapply grdone_seq; [exact C|exact Hz1|exact HI|].
      intros z2 G2 Hz2 _. apply (grdone_ret R C inv contents empties K k z2 _ _ Hz2).
    + cbv beta. intros B M HB (R1 & R2 & _). cbn [regions]. auto.
Qed.

Lemma g_client_all_spec rs s :
  ~ UP -> GenSpec.ready I inv s ->
  Forall (root_in E m fuel) rs -> Forall (root_proper empties) rs -> Forall (fun r => existsb may_panic (snd r) = false) rs ->
  match g_client_all R k E m fuel rs (g_from_storage s) with
  | Ok ps z =>
      let s' := gz_st z in
      let B := g_final_base R k s' in
      ps = roots_pos (i_pos I s) rs /\
      i_pos I s' = roots_end (i_pos I s) rs /\
      GenSpec.ready I inv s' /\
      (forall i, i < i_pos I s -> contents s' i = contents s i) /\
      regions (g_out_mem I contents B s') B (i_pos I s) rs
  | Panic e z =>
      refused_within I inv (i_pos I s) (roots_end (i_pos I s) rs) e /\
      GenSpec.ready I inv (gz_st z) /\ i_pos I s <= gpos z /\
      (forall i, i < i_pos I s -> gbuf z i = contents s i)
  | Abort => True
  | UB | OutOfFuel => False
  end.
Proof.
  intros NUP Hok Hall Hpl Hno. cfg.
  assert (Hup : Forall (fun r => existsb may_panic (snd r) = true -> UP) rs).
  { eapply Forall_impl; [|exact Hno]. intros r Hr Hx. rewrite Hr in Hx. discriminate. }
  pose proof (g_from_storage_inv R inv contents k s Hok) as Hz.
  pose proof (g_roots_done rs (g_from_storage s) [] Hall Hpl Hup Hz) as HV.
  pose proof (roots_end_allocs rs Hall (i_pos I s) (proj2 Hok)) as Hend.
  unfold g_client_all, bind.
  destruct (g_client_values R k E m fuel rs (g_from_storage s)) as [ps z1|e z1| | |]; auto.
  2:{ cbn in HV. destruct HV as ([V1|[V1 _]] & V2 & V3 & V4 & _); [|contradiction].
      cbn [g_from_storage gz_st] in *. rewrite Hend in V1. ands; auto. }
  cbn [GenSerRoot.grdone app] in HV. destruct HV as (G & -> & V1 & V2 & V3 & V4 & V5 & V6 & V9).
  cbn [g_from_storage gz_st] in *.
  pose proof (ginv_ok R inv contents _ _ _ V1) as Hok1.
  destruct (ready_le R inv contents empties K _ Hok1) as [Hpc Hcm].
  destruct (g_finalize_eq R C inv contents empties K k z1 G HS V1) as (z' & -> & Z1 & Z3 & Z6 & Z7).
  assert (Hp0 : rs <> [] -> 0 < gpos z1).
  { intros Hne. rewrite V2. destruct rs as [|[[l a] ss] rs]; [congruence|].
    inversion Hall as [|? ? Hx _]; subst. destruct Hx as (X1 & X2 & _).
    cbn [flat_map root_allocs app end_pos].
    pose proof (push_start_ge C (i_pos I s) l (proj1 X1)). pose proof (push_end_ge C (i_pos I s) l 1).
    pose proof (end_pos_ge C (push_end (i_pos I s) l 1) (flat_map (step_allocs E) ss ++ flat_map root_allocs rs)). lia. }
  cbn [ret]. cbv zeta. ands.
  - reflexivity.
  - congruence.
  - exact Z6.
  - intros i Hi. rewrite Z7 by lia. rewrite overlay_none; [apply V6; exact Hi|].
    intros q t Hq. destruct (V5 q t Hq). unfold covers; cbn. lia.
  - assert (Hb : g_final_base R k (gz_st z') = g_final_base R k (gz_st z1)).
    { unfold g_final_base. destruct k; auto. }
    rewrite Hb. assert (Hd : rs = [] \/ rs <> []) by (destruct rs; [left; reflexivity|right; discriminate]).
    destruct Hd as [->|Hne]; [exact Logic.I|]. specialize (Hp0 Hne). apply V9.
    + unfold g_final_base. clear - HS Hok1 Hpc Hp0 C. destruct k; try apply N.divide_0_r.
      destruct HS as (_ & Hct & _). destruct (Hct (gz_st z1) (proj1 Hok1) ltac:(lia)) as (P1 & P2 & P3).
      eapply N.divide_trans; [apply (c_MVA_dvd_SA C)|exact P2].
    + unfold g_final_base. destruct k; try lia.
      destruct HS as (_ & Hct & _). destruct (Hct (gz_st z1) (proj1 Hok1) ltac:(lia)) as (P1 & P2 & P3). lia.
    + intros i [[]|Hi]. unfold g_out_mem. rewrite Z1.
      set (b := g_final_base R k (gz_st z1)) in *.
      rewrite (proj2 (N.leb_le b (b + i))) by lia.
      rewrite (proj2 (N.ltb_lt (b + i) _)) by lia.
      cbn [andb]. replace (b + i - b) with i by lia. apply Z7. lia.
Qed.

End GenClientFacts.
