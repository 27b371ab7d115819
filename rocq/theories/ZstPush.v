(** * ZstPush: pushing a slice of a zero-sized type for a pointer, then processing it.

    The storage is not touched (storage/mod.rs:263-265: position 0 is returned), so the
    pointer is to the start of the output. *)
From Verif Require Import Base Types Storage Serializer Serialize Spec ArithFacts StorageFacts Frame MemFacts TypeFacts SerFacts SerMain.
From Coq Require Import ZifyBool ZifyNat ZifyN.
Local Open Scope N_scope.

Section ZstPush.
Context {P : Params}.
Notation zpos z := (s_pos (sw_s (z_sw z))).
Notation zbuf z := (s_buf (sw_s (z_sw z))).
Notation zcap z := (s_cap (sw_s (z_sw z))).
Notation zptr z := (s_ptr (sw_s (z_sw z))).
Hypothesis C : cfg_ok.

Ltac cfg :=
  pose proof (c_SA_pos C); pose proof (c_MVA_pos C); pose proof (c_VA_pos C);
  pose proof (c_VA_MVA C); pose proof (c_MVA_SA C); pose proof (c_MAXC C);
  pose proof (c_MVA_le_MAXC C); pose proof (c_sum C); pose proof (c_umod C);
  pose proof (c_SA_lt_imax C); pose proof (pW_vals (c_machine C)).

Lemma zst_tail k z G Gp z1 pm m ap pp (F : N -> Prop) psc (Rc : N -> mem -> Prop) {A} o (o' : outcome zs A) :
  (forall i, ~ F i) ->
  storage_ok (z_sw z) ->
  zinv k z1 (G ++ Gp) -> z_map z1 = z_map z -> zpos z1 = zpos z ->
  (forall i, ~ seg pp pW i -> zbuf z1 i = zbuf z i) ->
  (forall q t, In (q, t) G -> (q + pW <= zpos z)) ->
  (forall q t, In (q, t) Gp -> q = pp /\ t = 0) ->
  pp + pW <= zpos z ->
  extends (z_sw z) (z_sw z1) ->
  quietly (seg pp pW) [] z z1 Gp ->
  (tracking k = true -> In (pp, 0) Gp) ->
  (tracking k = false -> G = [] /\ Gp = [] /\ copied m ap pp (seg pp pW) 0 (zbuf z1)) ->
  done k (mkZ (z_sw z1) pm (z_ptrs z1)) (G ++ Gp) F psc Rc o ->
  remap z o o' ->
  done k z G (seg pp pW) psc
    (fun B M =>
       (tracking k = true -> word_at_is M (B + pp) B) /\
       (tracking k = false -> copied m ap pp (seg pp pW) B M) /\ Rc B M) o'.
Proof.
  intros HF0 Hok Hz1 Hm1 Hp1 Hb1 HG HGp Hpp Hext Hq Htr Hnt Hd Hre.
  cfg.
  destruct o as [u z4|e z4| | |]; cbn in Hre; [destruct Hre as [x ->]| | | |]; subst; auto.
  3:{ cbn in Hd |- *. apply (refused_later [] psc z _ (proj1 Hq) Hd). }
  - cbn in Hd. destruct Hd as (Gc & D1 & D2 & D3 & D4 & D5 & D6 & D7 & D8 & D9 & D10).
    cbn [z_sw z_map z_ptrs] in *. cbn. exists (Gp ++ Gc). cbn [z_sw z_map]. rewrite app_assoc. ands; auto; try lia.
    + rewrite D3, Hp1. reflexivity.
    + intros q t Hin. apply in_app_or in Hin. destruct Hin as [Hin|Hin].
      * left. destruct (HGp q t Hin) as [-> _]. intros i; unfold seg; lia.
      * right. destruct (D6 q t Hin) as [Hx|Hx]; [|lia].
        exfalso. exact (HF0 q (Hx q ltac:(lia) ltac:(lia))).
    + intros i Hi HF. rewrite D7; [apply Hb1; auto|lia|apply HF0].
    + apply (quietly_app (seg pp pW) F (seg pp pW) [] psc z _ _ Gp Gc Hq D8); auto.
      * apply ok_pos_le. apply (zinv_ok _ _ _ Hz1).
      * intros i Hi. exfalso. exact (HF0 i Hi).
      * intros i Hi. unfold seg in Hi. lia.
    + eapply extends_trans; eassumption.
    + intros B M HB Hle Hfit.
      assert (Hzi := D1). destruct Hzi as (_ & Hin4 & Hnd & _).
      split; [|split].
      * intros Hk. pose proof (Htr Hk) as Hin.
        intros i Hi.
        rewrite <- N.add_assoc, Hfit by (left; unfold seg; lia).
        rewrite <- (N.add_0_r B) at 2.
        apply overlay_hit; auto; try lia.
        ++ intros q' t' Hin'. apply (Hin4 q' t' Hin').
        ++ apply in_or_app; left. apply in_or_app; right. exact Hin.
      * intros Hk. destruct (Hnt Hk) as (-> & -> & Hcp). intros i HF.
        rewrite Hfit by (left; exact HF).
        rewrite overlay_none.
        -- rewrite D7; [|unfold seg in HF; lia|apply HF0].
           specialize (Hcp i HF). rewrite N.add_0_l in Hcp. exact Hcp.
        -- cbn [app] in *. destruct D1 as (_ & _ & _ & _ & bs & _ & Hkd).
           intros q t Hin. destruct k; try discriminate; cbn in Hkd; rewrite Hkd in Hin; destruct Hin.
      * apply D10; auto. intros i Hi. apply Hfit. right. cbn [z_sw] in Hi |- *.
        destruct Hi as [Hi|Hi]; [exfalso; exact (HF0 i Hi)|lia].
  - cbn in Hd |- *. destruct Hd as (B2 & B3 & B4 & B5 & B6 & G' & B7 & B8). cbn [z_sw] in *. ands; auto; try lia.
    + eapply stopped_imp; [exact B2|]. apply (full_later [] psc z _ _ (proj1 Hq)). exact Hp1.
    + eapply extends_trans; eassumption.
    + intros i Hi HF. rewrite B6; [apply Hb1; auto|lia|apply HF0].
    + exists (Gp ++ G'). rewrite app_assoc. split; [exact B7|].
      intros q t Hin. apply in_app_or in Hin. destruct Hin as [Hin|Hin].
      * left. destruct (HGp q t Hin) as [-> _]. intros i; unfold seg; lia.
      * right. destruct (B8 q t Hin) as [Hx|Hx]; [|lia]. exfalso. exact (HF0 q (Hx q ltac:(lia) ltac:(lia))).
Qed.

Lemma zst_done k z G m l n ap pp tp (process : M zs unit) (F : N -> Prop) psc (Rc : N -> mem -> Prop) :
  (forall i, ~ F i) ->
  ready k z G (seg pp pW) m pp ap ->
  l_size l = 0 -> pW <= MVA -> (pW | pp) ->
  (forall z1 G1, zpos z1 = zpos z -> ready k z1 G1 F m 0 tp -> done k z1 G1 F psc Rc (process z1)) ->
  done k z G (seg pp pW) psc
    (fun B M =>
       (tracking k = true -> word_at_is M (B + pp) B) /\
       (tracking k = false -> copied m ap pp (seg pp pW) B M) /\ Rc B M)
    (push_and_process_slice k (slice_at m l tp n) (addr_of k ap) process z).
Proof.
  intros HF0 Hr Hsz Hmv Hal Hproc. cfg.
  destruct Hr as (Hz & Hcp & Hnp & Hmap).
  pose proof (zinv_ok k z G Hz) as Hok.
  assert (Hpp : pp + pW <= zpos z).
  { destruct (Hcp (pp + pW - 1)) as (_ & Hx & _); [unfold seg; lia|lia]. }
  assert (Hzin := proj1 (proj2 Hz)).
  assert (El : lift (push_slice l n (mem_from m tp)) z = Ok 0 z).
  { rewrite (lift_eq _ z 0 (z_sw z)); [destruct z; reflexivity|]. apply push_slice_zst; exact Hsz. }
  assert (Hkk : tracking k = true \/ tracking k = false) by (destruct (tracking k); auto).
  destruct Hkk as [Hk|Hk].
  - (* pointer kinds *)
    destruct (Hmap Hk) as [Hm1 Hm2].
    destruct (overwrite_ptr_spec C k z G pp 0) as [Eo Hz2]; auto; try lia.
    { intros Hin. apply in_map_iff in Hin. destruct Hin as [[q t] [Hqe Hin]]. cbn in Hqe. subst q.
      apply (Hnp pp t Hin pp); [lia|lia|unfold seg; lia]. }
    set (z2 := ptr_written k z pp 0) in *.
    assert (Hz2sw : zpos z2 = zpos z /\ zptr z2 = zptr z /\ zcap z2 = zcap z /\
                    sw_calls (z_sw z2) = sw_calls (z_sw z) /\ sw_trace (z_sw z2) = sw_trace (z_sw z) /\
                    z_map z2 = z_map z /\
                    forall i, ~ seg pp pW i -> zbuf z2 i = zbuf z i).
    { subst z2. destruct k; try discriminate; cbn; ands; auto; intros i Hi; apply blit_out; unfold seg in Hi; lia. }
    destruct Hz2sw as (Z1 & Z2 & Z3 & Z4 & Z5 & Z6 & Z7).
    assert (Heq : push_and_process_slice k (slice_at m l tp n) (addr_of k ap) process z =
                  bind process (fun _ => bind (set_map (z_map z)) (fun _ => ret 0))
                    (mkZ (z_sw z2) (mkMap tp 0) (z_ptrs z2))).
    { assert (push_and_process_slice k (slice_at m l tp n) (addr_of k ap) process z =
              pw_push_and_process_slice k (slice_at m l tp n) (ATrack ap) process z) as ->.
      { unfold addr_of. rewrite Hk. destruct k; try discriminate; reflexivity. }
      unfold pw_push_and_process_slice.
      erewrite bind_ok by reflexivity.
      erewrite bind_ok by (unfold slice_at; cbn [sl_lay sl_len sl_data]; exact El).
      erewrite bind_ok.
      2:{ unfold pos_for_addr. erewrite bind_ok by reflexivity.
          erewrite bind_ok by (apply sub_u_ok; exact Hm1).
          pose proof (ok_pos_le _ Hok). pose proof (ok_cap_le _ Hok).
          rewrite add_u_ok by lia. rewrite <- Hm2. reflexivity. }
      erewrite bind_ok by exact Eo.
      erewrite bind_ok by reflexivity.
      reflexivity. }
    rewrite Heq.
    set (z3 := mkZ (z_sw z2) (mkMap tp 0) (z_ptrs z2)).
    eapply zst_tail with (Gp := [(pp, 0)]) (z1 := z2) (pm := mkMap tp 0) (o := process z3); try eassumption; auto.
    + intros q t Hin. apply (Hzin q t Hin).
    + intros q t [Heq'|[]]. inversion Heq'. auto.
    + apply extends_same; auto.
    + apply quietly_same; auto.
      * unfold frame_of. congruence.
      * apply ok_pos_le. exact Hok.
      * intros i Hi. unfold seg in Hi. lia.
      * intros q t [Heq'|[]] i Hi1 Hi2. inversion Heq'; subst. unfold seg. lia.
    + intros _. left; reflexivity.
    + intros Hx; congruence.
    + apply Hproc; [exact Z1|]. unfold ready. subst z3. cbn [z_sw z_map]. ands.
      * apply zinv_map. exact Hz2.
      * intros i Hi. exfalso. exact (HF0 i Hi).
      * intros q t _ i _ _. apply HF0.
      * intros _. cbn. lia.
    + unfold remap, bind. fold z3. destruct (process z3) as [u z4|? ?| | |]; auto.
      eexists. reflexivity.
  - (* pure kinds *)
    pose proof (pure_no_ptrs k z G Hk Hz) as ->.
    assert (Hcopy : copied m ap pp (seg pp pW) 0 (zbuf z)).
    { intros i HF. rewrite N.add_0_l. destruct (Hcp i HF) as (X1 & X2 & X3). exact X3. }
    assert (Hrdy : forall pm, ready k (mkZ (z_sw z) pm (z_ptrs z)) [] F m 0 tp).
    { intros pm. unfold ready. ands.
      - apply zinv_map. exact Hz.
      - intros i Hi. exfalso. exact (HF0 i Hi).
      - intros q t [].
      - intros; congruence. }
    assert (Hq0 : quietly (seg pp pW) [] z z []).
    { apply quietly_same; auto.
      - apply ok_pos_le. exact Hok.
      - intros i Hi. unfold seg in Hi. lia.
      - intros q t []. }
    assert (Hzz : z = mkZ (z_sw z) (z_map z) (z_ptrs z)) by (destruct z; reflexivity).
    destruct k; try discriminate; cbn [push_and_process_slice].
    + unfold dflt_push_and_process_slice, push_raw_slice, slice_at. cbn [sl_lay sl_len sl_data].
      erewrite bind_ok by exact El.
      assert (Hd : done PureCopy z [] F psc Rc (process z)).
      { apply Hproc; [reflexivity|]. rewrite Hzz. apply (Hrdy (z_map z)). }
      eapply zst_tail with (Gp := []) (z1 := z) (pm := z_map z) (o := process z); try eassumption; auto.
      * intros q t [].
      * intros q t [].
      * apply extends_refl.
      * intros Hx; discriminate.
      * unfold remap, bind. destruct (process z) as [u z4|? ?| | |]; auto.
        exists 0. cbn in Hd. destruct Hd as (G' & _ & Hmm & _). unfold ret. f_equal.
        destruct z4; cbn in *. subst. reflexivity.
    + unfold pt_push_and_process_slice, slice_at. cbn [sl_lay sl_len sl_data sl_addr].
      erewrite bind_ok by reflexivity. erewrite bind_ok by exact El. erewrite bind_ok by reflexivity.
      set (z3 := mkZ (z_sw z) (mkMap tp 0) (z_ptrs z)).
      eapply zst_tail with (Gp := []) (z1 := z) (pm := mkMap tp 0) (o := process z3); try eassumption; auto.
      * intros q t [].
      * intros q t [].
      * apply extends_refl.
      * intros Hx; discriminate.
      * apply Hproc; [reflexivity|apply (Hrdy (mkMap tp 0))].
      * unfold remap, bind. fold z3. destruct (process z3) as [u z4|? ?| | |]; auto.
        eexists. reflexivity.
Qed.
End ZstPush.
