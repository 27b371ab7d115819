(** * GenSerMain: one allocation, one word, one Vec header, over any storage (as SerMain.v). *)
From Verif Require Import Base Types Storage Serializer Serialize Spec ArithFacts StorageFacts MemFacts TypeFacts
  SerFacts SerMain GenStorage GenSpec GenFacts GenSerializer GenSerSpec GenSerFacts.
From Coq Require Import ZifyBool ZifyNat ZifyN.
Local Open Scope N_scope.

Section GenSerMain.
Context {P : Params}.
Context {St : Type}.
Variable R : ra_impl St.

Notation I := (r_st R).

(** ** The position mapping is kept *)
Definition gkeeps {A} (f : M (gz St) A) : Prop := forall z x z', f z = Ok x z' -> gz_map z' = gz_map z.

Lemma gkeeps_bind {A B} (f : M (gz St) A) (g : A -> M (gz St) B) :
  gkeeps f -> (forall x, gkeeps (g x)) -> gkeeps (bind f g).
Proof.
  intros Hf Hg z x z' H. unfold bind in H. destruct (f z) as [y z1|? ?| | |] eqn:Ef; try discriminate.
  rewrite (Hg y z1 x z' H). apply (Hf z y z1 Ef).
Qed.
Lemma gkeeps_ret {A} (x : A) : gkeeps (ret x).
Proof. intros z y z' H. inversion H; reflexivity. Qed.
Lemma gkeeps_panics {A} e : gkeeps (@panics (gz St) A e).
Proof. intros z y z' H. discriminate. Qed.
Lemma gkeeps_lift {A} (f : M St A) : gkeeps (glift f).
Proof.
  intros z x z' H. unfold glift in H. destruct (f (gz_st z)); try discriminate. inversion H; reflexivity.
Qed.
Lemma gkeeps_dassert c : gkeeps c -> gkeeps (dassert c).
Proof.
  intros Hc. unfold dassert. destruct dbg; [|apply gkeeps_ret].
  apply gkeeps_bind; [exact Hc|]. intros []; [apply gkeeps_ret|apply gkeeps_panics].
Qed.
Lemma gkeeps_add a b : gkeeps (add_u a b).
Proof. unfold add_u. repeat match goal with |- gkeeps (if ?b then _ else _) => destruct b end; auto using @gkeeps_ret, @gkeeps_panics. Qed.
Lemma gkeeps_sub a b : gkeeps (sub_u a b).
Proof. unfold sub_u. repeat match goal with |- gkeeps (if ?b then _ else _) => destruct b end; auto using @gkeeps_ret, @gkeeps_panics. Qed.
Lemma gkeeps_al a b : gkeeps (is_aligned_to a b).
Proof.
  unfold is_aligned_to. apply gkeeps_bind; [apply gkeeps_dassert, gkeeps_ret|]. intros _.
  apply gkeeps_bind; [apply gkeeps_sub|]. intros; apply gkeeps_ret.
Qed.
Lemma gkeeps_gets {A} (f : gz St -> A) : gkeeps (gets f).
Proof. intros z x z' H. inversion H; reflexivity. Qed.
Lemma gkeeps_set_ptrs p : gkeeps (g_set_ptrs p).
Proof. intros z x z' H. inversion H; reflexivity. Qed.

Lemma gkeeps_overwrite_ptr k q t : gkeeps (g_overwrite_ptr R k q t).
Proof.
  destruct k; cbn [g_overwrite_ptr]; try (intros z x z' H; discriminate).
  - unfold g_po_overwrite_ptr, g_capacity.
    repeat (first [apply gkeeps_lift | apply gkeeps_dassert | apply gkeeps_al | apply gkeeps_sub | apply gkeeps_ret
                  | apply gkeeps_gets | apply gkeeps_bind; [|intros ?]]).
  - unfold g_co_overwrite_ptr, g_capacity, g_get_ptrs.
    repeat (first [apply gkeeps_lift | apply gkeeps_dassert | apply gkeeps_al | apply gkeeps_sub | apply gkeeps_add
                  | apply gkeeps_ret | apply gkeeps_gets | apply gkeeps_set_ptrs
                  | apply gkeeps_bind; [|intros ?]]).
Qed.

Lemma gkeeps_pos_for pm a : gkeeps (pos_for_addr pm a).
Proof.
  unfold pos_for_addr. apply gkeeps_bind.
  - destruct a; cbn; [intros z x z' H; discriminate|apply gkeeps_ret].
  - intros n. apply gkeeps_bind; [apply gkeeps_sub|]. intros; apply gkeeps_add.
Qed.

(** push_slice is push_and_process_slice with nothing to process. *)
Lemma g_ser_push_slice_eq k s a z :
  g_ser_push_slice R k s a z = g_push_and_process_slice R k s a (ret tt) z.
Proof.
  destruct k; cbn [g_ser_push_slice g_push_and_process_slice]; auto.
  - unfold g_push_raw_slice, bind, g_get_map, gets.
    destruct (glift _ z) as [x z1|? ?| | |] eqn:El; auto.
    unfold g_set_map, modify, ret. cbn. rewrite <- (gkeeps_lift _ _ _ _ El). destruct z1; reflexivity.
  - unfold g_pw_push_slice, g_push_raw_slice, bind, g_get_map, gets.
    destruct (glift _ z) as [x z1|? ?| | |] eqn:El; auto.
    pose proof (gkeeps_lift _ _ _ _ El) as K1. rewrite <- K1.
    destruct (pos_for_addr (gz_map z1) a z1) as [q z2|? ?| | |] eqn:Ep; auto.
    pose proof (gkeeps_pos_for _ _ _ _ _ Ep) as K2. rewrite <- K2.
    destruct (g_overwrite_ptr _ _ q x z2) as [u z3|? ?| | |] eqn:Eo; auto.
    pose proof (gkeeps_overwrite_ptr _ _ _ _ _ _ Eo) as K3. rewrite <- K3.
    unfold g_set_map, modify, ret; cbn. destruct z3; reflexivity.
  - unfold g_pw_push_slice, g_push_raw_slice, bind, g_get_map, gets.
    destruct (glift _ z) as [x z1|? ?| | |] eqn:El; auto.
    pose proof (gkeeps_lift _ _ _ _ El) as K1. rewrite <- K1.
    destruct (pos_for_addr (gz_map z1) a z1) as [q z2|? ?| | |] eqn:Ep; auto.
    pose proof (gkeeps_pos_for _ _ _ _ _ Ep) as K2. rewrite <- K2.
    destruct (g_overwrite_ptr _ _ q x z2) as [u z3|? ?| | |] eqn:Eo; auto.
    pose proof (gkeeps_overwrite_ptr _ _ _ _ _ _ Eo) as K3. rewrite <- K3.
    unfold g_set_map, modify, ret; cbn. destruct z3; reflexivity.
Qed.

Section Cfg.
Hypothesis C : cfg_ok.
Variable inv : St -> Prop.
Variable contents : St -> mem.
Variable empties : bool.
Hypothesis K : keeps_contract (r_st R) inv contents empties.
Hypothesis KP : reserve_keeps_pos (r_st R) inv.
Context {UP : Prop}.

Ltac cfg :=
  pose proof (c_SA_pos C); pose proof (c_MVA_pos C); pose proof (c_VA_pos C);
  pose proof (c_VA_MVA C); pose proof (c_MVA_SA C); pose proof (c_MAXC C);
  pose proof (c_MVA_le_MAXC C); pose proof (c_sum C); pose proof (c_umod C);
  pose proof (c_SA_lt_imax C); pose proof (pW_vals (c_machine C)).

Notation gpos z := (i_pos (r_st R) (gz_st z)).
Notation gbuf z := (contents (gz_st z)).
Notation ginv := (GenSerFacts.ginv R inv contents).
Notation gdone := (GenSerFacts.gdone R inv contents (UP := UP)).
Notation gat := (GenSerFacts.gat R inv contents).

(** The outcome [o'] is [o] with the position mapping of [z] put back. *)
Definition gremap {A} (z : gz St) (o : outcome (gz St) unit) (o' : outcome (gz St) A) : Prop :=
  match o with
  | Ok _ z4 => exists x, o' = Ok x (mkGZ (gz_st z4) (gz_map z) (gz_ptrs z4))
  | Panic e z4 => o' = Panic e z4
  | Abort => o' = Abort
  | UB => o' = UB
  | OutOfFuel => o' = OutOfFuel
  end.

Lemma g_alloc_tail k z G Gp z1 pm l n m ap pp psc (Rc : N -> mem -> Prop) {A} o (o' : outcome (gz St) A) :
  let st := push_start (gpos z) l in
  good_layout l -> 0 < n -> 0 < l_size l ->
  ginv k z1 (G ++ Gp) -> gz_map z1 = gz_map z ->
  gpos z1 = push_end (gpos z) l n -> push_end (gpos z) l n <= MAXC ->
  (forall i, i < gpos z -> ~ seg pp pW i -> gbuf z1 i = gbuf z i) ->
  (forall q t, In (q, t) G -> (q + pW <= gpos z)) ->
  (forall q t, In (q, t) Gp -> q = pp /\ t = st) ->
  pp + pW <= gpos z ->
  (tracking k = true -> In (pp, st) Gp) ->
  (tracking k = false -> G = [] /\ Gp = [] /\ copied m ap pp (seg pp pW) 0 (gbuf z1)) ->
  gdone k (mkGZ (gz_st z1) pm (gz_ptrs z1)) (G ++ Gp) (seg st (l_size l * n)) psc Rc o ->
  gremap z o o' ->
  gdone k z G (seg pp pW) ((l, n) :: psc)
    (fun B M =>
       (tracking k = true -> word_at_is M (B + pp) (B + st) /\ valid_ref l n (B + st)) /\
       (tracking k = false -> copied m ap pp (seg pp pW) B M) /\ Rc B M) o'.
Proof.
  intros st Hl Hn Hsz Hz1 Hm1 Hp1 Hmax Hb1 HG HGp Hpp Htr Hnt Hd Hre.
  cfg. assert (Hst : gpos z <= st) by (apply (push_start_ge C), Hl).
  pose proof (push_end_ge C (gpos z) l n) as Hend. fold st in Hend.
  assert (Hlt : l_size l * 1 <= l_size l * n) by (apply N.mul_le_mono_l; lia). rewrite N.mul_1_r in Hlt.
  destruct o as [u z4|e z4| | |]; cbn in Hre; [destruct Hre as [x ->]| | | |]; subst; auto.
  - cbn in Hd. destruct Hd as (Gc & D1 & D2 & D3 & D4 & D5 & D6 & D7 & D10).
    cbn [gz_st gz_map gz_ptrs] in *. cbn. exists (Gp ++ Gc). cbn [gz_st gz_map]. rewrite app_assoc. ands; auto; try lia.
    + rewrite D3, Hp1. reflexivity.
    + intros q t Hin. apply in_app_or in Hin. destruct Hin as [Hin|Hin].
      * left. destruct (HGp q t Hin) as [-> _]. intros i; unfold seg; lia.
      * right. destruct (D6 q t Hin) as [Hx|Hx]; [|lia].
        split.
        -- destruct (Hx q) as [Hy _]; lia.
        -- destruct (Hx (q + pW - 1)) as [_ Hy]; lia.
    + intros i Hi HF. rewrite D7; [apply Hb1; auto|lia|unfold seg; lia].
    + intros B M HB Hle Hfit.
      assert (Hzi := D1). destruct Hzi as (_ & Hin4 & Hnd & _).
      split; [|split].
      * intros Hk. pose proof (Htr Hk) as Hin.
        assert (Hstl : B + st < umod) by lia.
        split.
        -- intros i Hi.
           rewrite <- N.add_assoc, Hfit by (left; unfold seg; lia).
           apply overlay_hit; auto; try lia.
           ++ intros q' t' Hin'. apply (Hin4 q' t' Hin').
           ++ apply in_or_app; left. apply in_or_app; right. exact Hin.
        -- unfold valid_ref. ands; [lia| |lia].
           apply N.divide_add_r; [|apply (push_start_align C), Hl].
           eapply divide_trans; [|exact HB]. apply pow2_divide; [apply Hl|apply (c_MVA C)|apply Hl].
      * intros Hk. destruct (Hnt Hk) as (-> & -> & Hcp). intros i HF.
        rewrite Hfit by (left; exact HF).
        rewrite overlay_none.
        -- rewrite D7; [|unfold seg in HF; lia|unfold seg in *; lia].
           specialize (Hcp i HF). rewrite N.add_0_l in Hcp. exact Hcp.
        -- cbn [app] in *. destruct D1 as (_ & _ & _ & _ & bs & _ & Hkd).
           intros q t Hin. destruct k; try discriminate; cbn in Hkd; rewrite Hkd in Hin; destruct Hin.
      * apply D10; auto. intros i Hi. apply Hfit. right. cbn [gz_st] in Hi |- *. unfold seg in Hi. lia.
  - cbn in Hd |- *. destruct Hd as (B2 & B3 & B5 & B6 & Gc & B7 & B8). cbn [gz_st] in *. ands; auto; try lia.
    + eapply gstop_wider; [exact B2|cbn [gz_st]; lia|]. cbn [gz_st end_pos]. rewrite Hp1. lia.
    + intros i Hi HF. rewrite B6; [apply Hb1; auto|lia|unfold seg; lia].
    + exists (Gp ++ Gc). rewrite app_assoc. split; [exact B7|].
      intros q t Hin. apply in_app_or in Hin. destruct Hin as [Hin|Hin].
      * left. destruct (HGp q t Hin) as [-> _]. intros i; unfold seg; lia.
      * right. destruct (B8 q t Hin) as [Hx|Hx]; [|lia]. destruct (Hx q) as [Hy _]; lia.
Qed.

(** The pure kinds never have pointers. *)
Lemma g_pure_no_ptrs k z G : tracking k = false -> ginv k z G -> G = [].
Proof. intros Hk (_ & _ & _ & _ & bs & _ & Hkd). destruct k; try discriminate; exact Hkd. Qed.

(** Pushing a slice referred to by the pointer word at [pp], then processing it. *)
Lemma g_alloc_done k z G m l n ap pp tp (process : M (gz St) unit) psc (Rc : N -> mem -> Prop) :
  storage_for k R inv contents ->
  let st := push_start (gpos z) l in
  gat k z G (seg pp pW) m pp ap ->
  good_layout l -> 0 < l_size l -> 0 < n -> l_size l * n <= imax ->
  pW <= MVA -> (pW | pp) ->
  (forall z1 G1, gpos z1 = push_end (gpos z) l n ->
     gat k z1 G1 (seg st (l_size l * n)) m st tp ->
     gdone k z1 G1 (seg st (l_size l * n)) psc Rc (process z1)) ->
  gdone k z G (seg pp pW) ((l, n) :: psc)
    (fun B M =>
       (tracking k = true -> word_at_is M (B + pp) (B + st) /\ valid_ref l n (B + st)) /\
       (tracking k = false -> copied m ap pp (seg pp pW) B M) /\ Rc B M)
    (g_push_and_process_slice R k (slice_at m l tp n) (addr_of k ap) process z).
Proof.
  intros Hfor st Hr Hl Hsz Hn Hle Hmv Hal Hproc. cfg.
  destruct Hr as (Hz & Hcp & Hnp & Hmap).
  pose proof (ginv_ok R inv contents k z G Hz) as Hok.
  assert (Hpp : pp + pW <= gpos z).
  { destruct (Hcp (pp + pW - 1)) as (_ & Hx & _); [unfold seg; lia|lia]. }
  pose proof (g_push_spec C R inv contents empties K KP (gz_st z) l n (mem_from m tp) Hok Hl Hsz Hn Hle) as Hps.
  assert (Hst : gpos z <= st) by (apply (push_start_ge C), Hl).
  pose proof (push_end_ge C (gpos z) l n) as Hend. fold st in Hend, Hps.
  assert (Hlt : l_size l * 1 <= l_size l * n) by (apply N.mul_le_mono_l; lia). rewrite N.mul_1_r in Hlt.
  assert (Hzin := proj1 (proj2 Hz)).
  destruct (g_push_slice I l n (mem_from m tp) (gz_st z)) as [p1 w1|e w1| | |] eqn:Ep; try contradiction.
  2:{ (* reserve panics *)
    destruct Hps as (Q1 & Q2 & Q3 & Q4).
    assert (Heq : g_push_and_process_slice R k (slice_at m l tp n) (addr_of k ap) process z =
                  Panic e (mkGZ w1 (gz_map z) (gz_ptrs z))).
    { destruct k; cbn [g_push_and_process_slice]; unfold g_push_raw_slice, slice_at, bind, g_get_map, gets, glift;
        cbn [sl_lay sl_len sl_data]; rewrite Ep; reflexivity. }
    rewrite Heq. cbn. ands; auto; try lia.
    - left. eapply refused_wider; [exact Q1|lia|]. cbn [end_pos]. apply (end_pos_ge C).
    - exists []. rewrite app_nil_r. split; [|intros q t []]. apply ginv_push; auto. cbn. lia. }
  2:{ assert (Heq : g_push_and_process_slice R k (slice_at m l tp n) (addr_of k ap) process z = Abort).
      { destruct k; cbn [g_push_and_process_slice]; unfold g_push_raw_slice, slice_at, bind, g_get_map, gets, glift;
          cbn [sl_lay sl_len sl_data]; rewrite Ep; reflexivity. }
      rewrite Heq. exact Logic.I. }
  destruct Hps as (-> & Hpos1 & Hok1 & Hmax & Hb1 & Hd1).
  set (z1 := mkGZ w1 (gz_map z) (gz_ptrs z)).
  assert (Hz1 : ginv k z1 G) by (apply ginv_push; auto; lia).
  assert (El : glift (g_push_slice I l n (mem_from m tp)) z = Ok st z1) by (apply glift_eq; exact Ep).
  assert (Hkk : tracking k = true \/ tracking k = false) by (destruct (tracking k); auto).
  destruct Hkk as [Hk|Hk].
  - (* pointer kinds *)
    destruct (Hmap Hk) as [Hm1 Hm2].
    destruct (g_overwrite_ptr_spec C R inv contents empties K k z1 G pp st) as (z2 & Eo & Hz2 & Z1 & Z6 & Z7);
      auto; try (subst z1; cbn; lia).
    { intros Hin. apply in_map_iff in Hin. destruct Hin as [[q t] [Hqe Hin]]. cbn in Hqe. subst q.
      apply (Hnp pp t Hin pp); [lia|lia|unfold seg; lia]. }
    assert (Heq : g_push_and_process_slice R k (slice_at m l tp n) (addr_of k ap) process z =
                  bind process (fun _ => bind (g_set_map (gz_map z)) (fun _ => ret st))
                    (mkGZ (gz_st z2) (mkMap tp st) (gz_ptrs z2))).
    { assert (Hpf : pos_for_addr (gz_map z) (ATrack ap) z1 = Ok pp z1).
      { unfold pos_for_addr. erewrite bind_ok by reflexivity.
        erewrite bind_ok by (apply sub_u_ok; exact Hm1).
        pose proof (ready_le R inv contents empties K _ Hok).
        rewrite add_u_ok by lia. rewrite <- Hm2. reflexivity. }
      unfold addr_of. rewrite Hk. 
      destruct k; try discriminate; cbn [g_push_and_process_slice].
      all: erewrite bind_ok by reflexivity.
      all: erewrite bind_ok by (unfold slice_at; cbn [sl_lay sl_len sl_data]; exact El).
      all: rewrite (bind_ok _ _ _ _ _ Hpf), (bind_ok _ _ _ _ _ Eo).
      all: erewrite bind_ok by reflexivity; reflexivity. }
    rewrite Heq.
    set (z3 := mkGZ (gz_st z2) (mkMap tp st) (gz_ptrs z2)).
    eapply g_alloc_tail with (Gp := [(pp, st)]) (z1 := z2) (pm := mkMap tp st) (o := process z3); auto.
    + rewrite Z1. exact Hpos1.
    + intros i Hi HF. rewrite Z7; [apply Hb1; exact Hi|subst z1; cbn; lia|unfold seg in HF; lia].
    + intros q t Hin. apply (Hzin q t Hin).
    + intros q t [Heq'|[]]. inversion Heq'. auto.
    + intros _. left; reflexivity.
    + intros Hx; congruence.
    + apply Hproc.
      * cbn. rewrite Z1. exact Hpos1.
      * unfold GenSerFacts.gat. subst z3. cbn [gz_st gz_map]. ands.
        -- apply ginv_map. exact Hz2.
        -- intros i [Hi1 Hi2]. ands; [exact Hi1|rewrite Z1; subst z1; cbn; lia|].
           rewrite Z7 by (subst z1; cbn; lia).
           replace i with (st + (i - st)) at 1 by lia. subst z1; cbn. rewrite Hd1 by lia. reflexivity.
        -- intros q t Hin i Hi1 Hi2 [Hs1 Hs2]. apply in_app_or in Hin. destruct Hin as [Hin|[Heq'|[]]].
           ++ destruct (Hzin q t Hin). lia.
           ++ inversion Heq'; subst. lia.
        -- intros _. cbn. lia.
    + unfold gremap, bind. fold z3. destruct (process z3) as [u z4|? ?| | |]; auto.
      eexists. reflexivity.
  - (* pure kinds *)
    pose proof (g_pure_no_ptrs k z G Hk Hz) as ->.
    assert (Hcopy : copied m ap pp (seg pp pW) 0 (gbuf z1)).
    { intros i HF. rewrite N.add_0_l. destruct (Hcp i HF) as (X1 & X2 & X3).
      subst z1; cbn. rewrite Hb1 by exact X2. exact X3. }
    assert (Hrdy : forall pm, gat k (mkGZ (gz_st z1) pm (gz_ptrs z1)) [] (seg st (l_size l * n)) m st tp).
    { intros pm. unfold GenSerFacts.gat. ands.
      - apply ginv_map. exact Hz1.
      - intros i [Hi1 Hi2]. ands; [exact Hi1|subst z1; cbn; lia|].
        replace i with (st + (i - st)) at 1 by lia. subst z1; cbn. rewrite Hd1 by lia. reflexivity.
      - intros q t [].
      - intros; congruence. }
    destruct k; try discriminate; cbn [g_push_and_process_slice].
    + unfold g_push_raw_slice, slice_at. cbn [sl_lay sl_len sl_data].
      erewrite bind_ok by exact El.
      eapply g_alloc_tail with (Gp := []) (z1 := z1) (pm := gz_map z1) (o := process z1); auto.
      * intros q t [].
      * intros q t [].
      * intros Hx; discriminate.
      * apply Hproc; [exact Hpos1|apply (Hrdy (gz_map z1))].
      * assert (Hd : gdone PureCopy z1 [] (seg st (l_size l * n)) psc Rc (process z1)).
        { apply Hproc; [exact Hpos1|apply (Hrdy (gz_map z1))]. }
        unfold gremap, bind. destruct (process z1) as [u z4|? ?| | |]; auto.
        exists st. cbn in Hd. destruct Hd as (G' & _ & Hmm & _). unfold ret. f_equal.
        destruct z4; cbn in *. subst. reflexivity.
    + unfold slice_at. cbn [sl_lay sl_len sl_data sl_addr].
      erewrite bind_ok by reflexivity. erewrite bind_ok by exact El. erewrite bind_ok by reflexivity.
      set (z3 := mkGZ (gz_st z1) (mkMap tp st) (gz_ptrs z1)).
      eapply g_alloc_tail with (Gp := []) (z1 := z1) (pm := mkMap tp st) (o := process z3); auto.
      * intros q t [].
      * intros q t [].
      * intros Hx; discriminate.
      * apply Hproc; [exact Hpos1|apply (Hrdy (mkMap tp st))].
      * unfold gremap, bind. fold z3. destruct (process z3) as [u z4|? ?| | |]; auto.
        eexists. reflexivity.
Qed.

(** ** Overwriting bytes (Complete) *)
Lemma g_overwrite_done z G m l data ap pp :
  writes_in_place R inv contents ->
  gat Complete z G (seg pp (l_size l)) m pp ap ->
  good_layout l -> 0 < l_size l -> (l_align l | pp) ->
  gdone Complete z G (seg pp (l_size l)) []
    (fun B M => forall i, i < l_size l -> M (B + pp + i) = data i)
    (g_overwrite R Complete (ATrack ap) l data z).
Proof.
  intros HW (Hz & Hcp & Hnp & Hmap) Hl Hsz Hal. cfg.
  pose proof (ginv_ok R inv contents _ z G Hz) as Hok.
  pose proof (ready_le R inv contents empties K _ Hok) as [Hpc Hcm].
  destruct (Hmap eq_refl) as [Hm1 Hm2].
  assert (Hpp : pp + l_size l <= gpos z).
  { destruct (Hcp (pp + l_size l - 1)) as (_ & Hx & _); [unfold seg; lia|lia]. }
  assert (Hdis : forall q t, In (q, t) G -> q + pW <= pp \/ pp + l_size l <= q).
  { intros q t Hin.
    destruct (N.le_gt_cases (q + pW) pp) as [|Hx]; [auto|right].
    destruct (N.le_gt_cases (pp + l_size l) q) as [|Hy]; [auto|exfalso].
    destruct (N.le_gt_cases q pp).
    - apply (Hnp q t Hin pp); [lia|lia|unfold seg; lia].
    - apply (Hnp q t Hin q); [lia|lia|unfold seg; lia]. }
  destruct (HW (gz_st z) pp l 1 data (proj1 Hok) Hl Hsz ltac:(lia) Hal ltac:(lia)) as (w' & E & Hi' & Hp' & Hb').
  rewrite N.mul_1_r in Hb'.
  cbn [g_overwrite]. unfold g_do_overwrite.
  erewrite bind_ok by reflexivity.
  erewrite bind_ok.
  2:{ unfold pos_for_addr. erewrite bind_ok by reflexivity.
      erewrite bind_ok by (apply sub_u_ok; exact Hm1).
      rewrite add_u_ok by lia. rewrite <- Hm2. reflexivity. }
  rewrite (glift_eq _ z tt w') by (unfold g_write; exact E).
  assert (Hr' : GenSpec.ready I inv w') by (split; [exact Hi'|rewrite Hp'; apply Hok]).
  cbn. exists []. rewrite app_nil_r. rewrite Hp'. ands; auto; try lia.
  - eapply ginv_write; eauto.
  - intros q t [].
  - intros i Hi HF. rewrite Hb' by exact Hi. apply blit_out. unfold seg in HF. lia.
  - intros B M HB Hle Hfit i Hi. rewrite <- N.add_assoc, Hfit by (left; unfold seg; lia).
    rewrite overlay_none.
    + cbn. rewrite Hb' by lia. rewrite blit_in by lia. f_equal. lia.
    + intros q t Hin. destruct (covers (pp + i) (q, t)) eqn:Ec; [|reflexivity].
      apply covers_true in Ec. destruct (Hdis q t Hin); lia.
Qed.

Hypothesis HW : writes_in_place R inv contents.

Lemma g_usize_word_done z G m ap pp x :
  gat Complete z G (seg pp pW) m pp ap -> pW <= MVA -> (pW | pp) -> x < umod ->
  gdone Complete z G (seg pp pW) [] (fun B M => word_at_is M (B + pp) x)
    (g_overwrite R Complete (ATrack ap) usize_layout (word_src x) z).
Proof.
  intros Hr Hmv Hal Hx. pose proof (pW_vals (c_machine C)).
  eapply gdone_eqF; [reflexivity| |apply (g_overwrite_done z G m usize_layout (word_src x) ap pp)]; auto.
  - apply usize_good; auto.
  - cbn; lia.
Qed.

Lemma g_two_words_done z G m ap pp x y :
  gat Complete z G (seg pp (2 * pW)) m pp ap -> pW <= MVA -> (pW | pp) -> x < umod -> y < umod ->
  gdone Complete z G (seg pp (2 * pW)) []
    (fun B M => word_at_is M (B + pp) x /\ word_at_is M (B + (pp + pW)) y)
    (g_overwrite R Complete (ATrack ap) two_words_layout (two_words x y) z).
Proof.
  intros Hr Hmv Hal Hx Hy. cfg. pose proof (imax_big (c_machine C)).
  eapply gdone_eqF; [reflexivity| |apply (g_overwrite_done z G m two_words_layout (two_words x y) ap pp)]; auto.
  - cbn [l_size two_words_layout]. intros B M _ HR. split.
    + intros i Hi. rewrite HR by lia. apply two_words_lo_hi. exact Hi.
    + intros i Hi.
      replace (B + (pp + pW) + i) with (B + pp + (pW + i)) by lia. rewrite HR by lia.
      apply two_words_lo_hi. exact Hi.
  - unfold good_layout, two_words_layout; cbn [l_size l_align]. ands; try lia.
    + apply pW_pow2, (c_machine C).
    + apply N.divide_mul_r, N.divide_refl.
  - cbn [l_size two_words_layout]. lia.
Qed.

Lemma g_add_u_bind {A} a b (f : addr -> M (gz St) A) z :
  a + b < umod -> bind (n <- add_u a b ;; ret (ATrack n)) f z = f (ATrack (a + b)) z.
Proof. intros H. unfold bind. rewrite add_u_ok by exact H. reflexivity. Qed.

(** Capacity and pointer of an empty Vec: exactly these two words are written. *)
Lemma g_overwrite_empty_done z G m vl d a p :
  gat Complete z G (fun i => seg (p + cap_off vl) pW i \/ seg (p + ptr_off vl) pW i) m p a ->
  pW <= MVA -> (pW | p) -> d < umod -> a + 3 * pW <= umod ->
  gdone Complete z G (fun i => seg (p + cap_off vl) pW i \/ seg (p + ptr_off vl) pW i) []
    (fun B M => word_at_is M (B + (p + cap_off vl)) 0 /\ word_at_is M (B + (p + ptr_off vl)) d)
    (g_overwrite_empty R Complete (mkVoffs (ptr_off vl) (cap_off vl) (len_off vl)) d a z).
Proof.
  intros Hr Hmv Hal Hd Ha. cfg.
  assert (Hp2 : (pW | p + pW)) by (apply N.divide_add_r; [exact Hal|apply N.divide_refl]).
  assert (Hp3 : (pW | p + 2 * pW)) by (apply N.divide_add_r; [exact Hal|apply N.divide_mul_r, N.divide_refl]).
  unfold g_overwrite_empty, addr_from_ref, addr_from_ref_offset; cbn [vo_cap vo_ptr tracking].
  destruct vl; cbn [cap_off ptr_off cap_ix ptr_ix] in *; unfold cap_off, ptr_off in *; cbn [cap_ix ptr_ix] in *;
    rewrite ?N.mul_0_l, ?N.mul_1_l, ?N.add_0_r in *.
  all: repeat match goal with |- context [?x =? ?y] =>
         first [rewrite (proj2 (N.eqb_eq x y)) by lia | rewrite (proj2 (N.eqb_neq x y)) by lia] end;
       cbn [andb].
  - (* CPL *) erewrite bind_ok by reflexivity.
    eapply gdone_eqF; [| |apply (g_two_words_done z G m a p 0 d)]; auto; try lia.
    + intros i; unfold seg; lia.
    + eapply gat_eqF; [|exact Hr]. intros i; unfold seg; lia.
  - (* CLP *) rewrite g_add_u_bind by lia. cbv beta. rewrite ?N.add_0_r.
    change (@nil (layout * N)) with (@nil (layout * N) ++ []).
    eapply gdone_seq with (m := m) (p := p) (a := a); auto.
    + intros i; unfold seg; lia.
    + apply (g_usize_word_done z G m a p 0); auto; try lia. eapply gat_sub; [exact Hr|]. intros i; cbv beta; auto.
    + intros x z1 G1 _ Hr1 _ _. rewrite g_add_u_bind by lia. cbv beta.
      eapply gdone_eqF; [reflexivity| |apply (g_usize_word_done z1 (G ++ G1) m (a + 2 * pW) (p + 2 * pW) d)]; auto; try lia.
      apply gat_shift; auto. intros i; unfold seg; lia.
  - (* PCL *) erewrite bind_ok by reflexivity.
    eapply gdone_eqF; [| |apply (g_two_words_done z G m a p d 0)]; auto; try lia.
    + intros i; unfold seg; lia.
    + intros B M _ [R1 R2]; auto.
    + eapply gat_eqF; [|exact Hr]. intros i; unfold seg; lia.
  - (* PLC *) rewrite g_add_u_bind by lia. cbv beta.
    change (@nil (layout * N)) with (@nil (layout * N) ++ []).
    eapply gdone_seq with (m := m) (p := p) (a := a); auto.
    + intros i; unfold seg; lia.
    + apply (g_usize_word_done z G m (a + 2 * pW) (p + 2 * pW) 0); auto; try lia.
      apply gat_shift; [|intros i; unfold seg; lia]. eapply gat_sub; [exact Hr|]. intros i; cbv beta; auto.
    + intros x z1 G1 _ Hr1 _ _. rewrite g_add_u_bind by lia. cbv beta. rewrite ?N.add_0_r.
      apply (g_usize_word_done z1 (G ++ G1) m a p d); auto; try lia.
  - (* LCP *) rewrite g_add_u_bind by lia. cbv beta.
    eapply gdone_eqF; [| |apply (g_two_words_done z G m (a + pW) (p + pW) 0 d)]; auto; try lia.
    + intros i; unfold seg; lia.
    + intros B M _ [R1 R2]. split; [exact R1|]. intros i Hi. rewrite <- (R2 i Hi). f_equal. lia.
    + apply gat_shift; [|intros i; unfold seg; lia]. eapply gat_eqF; [|exact Hr]. intros i; unfold seg; lia.
  - (* LPC *) rewrite g_add_u_bind by lia. cbv beta.
    eapply gdone_eqF; [| |apply (g_two_words_done z G m (a + pW) (p + pW) d 0)]; auto; try lia.
    + intros i; unfold seg; lia.
    + intros B M _ [R1 R2]. split; [intros i Hi; rewrite <- (R2 i Hi); f_equal; lia|exact R1].
    + apply gat_shift; [|intros i; unfold seg; lia]. eapply gat_eqF; [|exact Hr]. intros i; unfold seg; lia.
Qed.

End Cfg.
End GenSerMain.
