(** * Misuse: the safe methods of Serializer called with arbitrary addresses (C39),
    and twice for the same pointer (C40). *)
From Verif Require Import Base Types Storage Serializer Serialize Spec ArithFacts StorageFacts
  StorageHist MemFacts TypeFacts SerFacts SerMain SerValue SerRoot Moves StorageProps SerProps Corner.
From Coq Require Import ZifyBool ZifyNat ZifyN.
Local Open Scope N_scope.

Section Misuse.
Context {P : Params}.
Notation cap w := (s_cap (sw_s w)).
Notation pos w := (s_pos (sw_s w)).
Notation ptr w := (s_ptr (sw_s w)).
Notation buf w := (s_buf (sw_s w)).
Notation zpos z := (s_pos (sw_s (z_sw z))).
Notation zbuf z := (s_buf (sw_s (z_sw z))).
Notation zcap z := (s_cap (sw_s (z_sw z))).
Notation zptr z := (s_ptr (sw_s (z_sw z))).

Section Cfg.
Hypothesis C : cfg_ok.
Hypothesis HA : alloc_ok.

Ltac cfg :=
  pose proof (c_SA_pos C); pose proof (c_MVA_pos C); pose proof (c_VA_pos C);
  pose proof (c_VA_MVA C); pose proof (c_MVA_SA C); pose proof (c_MAXC C);
  pose proof (c_MVA_le_MAXC C); pose proof (c_sum C); pose proof (c_umod C);
  pose proof (c_SA_lt_imax C); pose proof (pW_vals (c_machine C)).

Lemma ptr_write_eq k z q t :
  tracking k = true -> storage_ok (z_sw z) -> pW <= MVA -> (pW | q) -> q + pW <= zpos z -> t <= zpos z ->
  overwrite_ptr k q t z = Ok tt (ptr_written k z q t).
Proof.
  intros Hk Hok Hmv Hq Hqle Ht. cfg.
  pose proof (ok_pos_le _ Hok). pose proof (ok_cap_le _ Hok).
  assert (Hlegal : zptr z <> 0 /\ (SA | zptr z) /\ zptr z + zcap z < umod) by (apply Hok; lia).
  destruct Hlegal as (L1 & L2 & L3).
  assert (SA <= zptr z) by (apply divide_le_pos; auto; lia).
  destruct k; try discriminate; cbn [overwrite_ptr ptr_written].
  - unfold po_overwrite_ptr.
    erewrite bind_ok.
    2:{ apply dassert_true. unfold bind, ser_capacity, lift, get_cap, gets.
        rewrite sub_u_ok by lia. unfold ret. destruct z; do 2 f_equal; cbn in *; lia. }
    erewrite bind_ok by (apply dassert_true, is_aligned_to_true; [apply pW_pow2, (c_machine C)|exact Hq]).
    erewrite bind_ok.
    2:{ apply dassert_true. unfold bind, ser_capacity, lift, get_cap, gets, ret.
        destruct z; do 2 f_equal; cbn in *; lia. }
    apply lift_eq. apply write_word_eq; auto.
  - unfold co_overwrite_ptr.
    erewrite bind_ok.
    2:{ apply dassert_true. unfold bind, ser_capacity, lift, get_cap, gets.
        rewrite sub_u_ok by lia. unfold ret. destruct z; do 2 f_equal; cbn in *; lia. }
    erewrite bind_ok by (apply dassert_true, is_aligned_to_true; [apply pW_pow2, (c_machine C)|exact Hq]).
    erewrite bind_ok.
    2:{ apply dassert_true. unfold bind, ser_capacity, lift, get_cap, gets, ret.
        destruct z; do 2 f_equal; cbn in *; lia. }
    erewrite bind_ok.
    2:{ apply lift_eq. unfold as_ptr, get_ptr, gets. reflexivity. }
    erewrite bind_ok.
    2:{ apply add_u_ok. lia. }
    erewrite bind_ok.
    2:{ apply lift_eq. cbn [z_sw]. apply write_word_eq; auto. }
    erewrite bind_ok by reflexivity.
    unfold set_ptrs, modify. cbn. reflexivity.
Qed.

(** ** Arbitrary addresses *)
Lemma ptr_write_debug k z q t :
  dbg = true -> storage_ok (z_sw z) -> pW <= MVA -> tracking k = true -> overwrite_ptr k q t z <> UB.
Proof.
  intros Hd Hok Hmv Hk. cfg. pose proof (ok_cap_le _ Hok).
  assert (Hw : forall x, q + pW <= zcap z -> (pW | q) ->
     exists w', write q usize_layout (word_src x) (z_sw z) = Ok tt w').
  { intros x Hq Hal.
    destruct (write_exact C (z_sw z) q usize_layout 1 (word_src x)) as (w' & E & _); auto.
    - apply usize_good; auto.
    - cbn [l_size usize_layout]. lia.
    - left. lia.
    - exists w'. exact E. }
  assert (Hpre : forall (g : M zs unit),
     (q + pW <= zcap z -> (pW | q) -> g z <> UB) ->
     (dassert (c <- ser_capacity ;; d <- sub_u c pW ;; ret (q <=? d)) ;;;
      dassert (is_aligned_to q pW) ;;;
      dassert (c <- ser_capacity ;; ret (t <=? c)) ;;; g) z <> UB).
  { intros g Hg.
    assert (Hstep : forall (c : M zs bool) (g : M zs unit),
       ((exists b, c z = Ok b z) \/ (exists p, c z = Panic p z)) ->
       (c z = Ok true z -> g z <> UB) -> (dassert c ;;; g) z <> UB).
    { intros c g0 Hc Hg0. unfold dassert. rewrite Hd. unfold bind.
      destruct Hc as [[b E]|[p E]]; rewrite E; [|discriminate].
      destruct b; cbn; [apply Hg0; exact E|discriminate]. }
    assert (Hcap : forall B (f : N -> M zs B), (c <- ser_capacity ;; f c) z = f (zcap z) z).
    { intros B f. unfold bind, ser_capacity, lift, get_cap, gets. destruct z; reflexivity. }
    apply Hstep.
    { rewrite Hcap. unfold sub_u, bind, ret, panics. rewrite Hd. destruct (pW <=? zcap z); eauto. }
    rewrite Hcap. unfold sub_u. rewrite Hd. intros H1'.
    assert (Hq : q + pW <= zcap z).
    { unfold bind, ret, panics in H1'. destruct (N.leb_spec pW (zcap z)); [|discriminate].
      injection H1' as H1'. apply N.leb_le in H1'. lia. }
    apply Hstep.
    { left. eexists. apply is_aligned_to_ok, pW_pow2, (c_machine C). }
    intros H2'. rewrite is_aligned_to_ok in H2' by apply pW_pow2, (c_machine C).
    injection H2' as H2'. apply N.eqb_eq in H2'.
    apply Hstep.
    { rewrite Hcap. left. eexists. reflexivity. }
    intros _. apply Hg; [exact Hq|]. apply N.mod_divide; [lia|exact H2']. }
  destruct k; try discriminate; cbn [overwrite_ptr].
  - apply Hpre. intros Hq Hal. destruct (Hw t Hq Hal) as (w' & E).
    unfold lift. rewrite E. discriminate.
  - unfold co_overwrite_ptr. apply Hpre. intros Hq Hal.
    erewrite bind_ok.
    2:{ apply lift_eq. unfold as_ptr, get_ptr, gets. reflexivity. }
    assert (Hz : mkZ (z_sw z) (z_map z) (z_ptrs z) = z) by (destruct z; reflexivity). rewrite Hz.
    unfold bind at 1, add_u. rewrite Hd.
    destruct (_ <? umod); [|unfold panics; discriminate]. unfold ret at 1.
    destruct (Hw (zptr z + t) Hq Hal) as (w' & E).
    rewrite (bind_ok _ _ _ _ _ (lift_eq _ _ _ _ E)). cbn. discriminate.
Qed.

(** The addresses for which a push writes its pointer inside the output. *)
Definition addr_fine (k : kind) (z : zs) (a : addr) : Prop :=
  tracking k = true ->
  exists n, a = ATrack n /\
    (dbg = true \/
     (pm_in (z_map z) <= n /\ (pW | n - pm_in (z_map z) + pm_out (z_map z)) /\
      n - pm_in (z_map z) + pm_out (z_map z) + pW <= zpos z)).

Definition slice_fine (s : slice) : Prop :=
  good_layout (sl_lay s) /\ l_size (sl_lay s) * sl_len s <= imax /\ 0 < sl_len s.

Lemma push_any_addr k s a process z :
  storage_ok (z_sw z) -> pW <= MVA -> slice_fine s -> addr_fine k z a ->
  (forall z1, storage_ok (z_sw z1) -> process z1 <> UB) ->
  push_and_process_slice k s a process z <> UB.
Proof.
  intros Hok Hmv (Hl & Hn & Hpos) Ha Hpr. cfg.
  pose proof (push_total C HA (z_sw z) (sl_lay s) (sl_len s) (sl_data s) Hok Hl Hn Hpos) as Ht.
  pose proof (push_pushed C HA (z_sw z) (sl_lay s) (sl_len s) (sl_data s) Hok Hl Hn) as [Hp _].
  assert (Hst : forall p w', push_slice (sl_lay s) (sl_len s) (sl_data s) (z_sw z) = Ok p w' ->
     storage_ok w' /\ zpos z <= pos w' /\ (p < pos w' \/ p = 0)).
  { intros p w' Hr. specialize (Hp _ _ Hr). unfold pushed in Hp.
    destruct (N.eqb_spec (l_size (sl_lay s)) 0) as [E0|E0].
    - destruct Hp as [-> ->]. ands; auto. lia.
    - destruct Hp as (_ & (_ & L0 & _) & (_ & L & _) & _ & _ & Hok').
      assert (0 < l_size (sl_lay s) * sl_len s) by (apply N.mul_pos_pos; lia). ands; auto; lia. }
  assert (Hpost : forall (z1 : zs) (p : N) (before : posmap), storage_ok (z_sw z1) ->
    (set_map (mkMap (sl_addr s) p) ;;; process ;;; set_map before ;;; ret p) z1 <> UB).
  { intros z1 p before Hok1. unfold bind, set_map, modify.
    specialize (Hpr (mkZ (z_sw z1) (mkMap (sl_addr s) p) (z_ptrs z1)) Hok1).
    destruct (process _); try discriminate. contradiction. }
  destruct (tracking k) eqn:Hk.
  2:{ destruct k; try discriminate; cbn [push_and_process_slice].
      - unfold dflt_push_and_process_slice, push_raw_slice, bind, lift, ret.
        destruct (push_slice _ _ _ (z_sw z)) as [p w'|? ?| | |] eqn:Ep; try discriminate; try contradiction.
        specialize (Hpr (mkZ w' (z_map z) (z_ptrs z)) (proj1 (Hst _ _ eq_refl))).
        destruct (process _); try discriminate. contradiction.
      - unfold pt_push_and_process_slice. rewrite (bind_ok get_map _ z (z_map z) z eq_refl).
        unfold bind at 1, lift.
        destruct (push_slice _ _ _ (z_sw z)) as [p w'|? ?| | |] eqn:Ep; try discriminate; try contradiction.
        apply Hpost. apply (Hst _ _ eq_refl). }
  destruct (Ha Hk) as (n & -> & Hn').
  assert (HE : push_and_process_slice k s (ATrack n) process z
             = pw_push_and_process_slice k s (ATrack n) process z) by (destruct k; try discriminate; reflexivity).
  rewrite HE. unfold pw_push_and_process_slice. rewrite (bind_ok get_map _ z (z_map z) z eq_refl).
  unfold bind at 1, lift.
  destruct (push_slice _ _ _ (z_sw z)) as [p w'|? ?| | |] eqn:Ep; try discriminate; try contradiction.
  destruct (Hst _ _ eq_refl) as (Hok' & Hle & Hp').
  pose proof (ok_pos_le _ Hok'). pose proof (ok_cap_le _ Hok').
  set (z1 := mkZ w' (z_map z) (z_ptrs z)) in *.
  assert (Hcont : forall q, overwrite_ptr k q p z1 <> UB ->
     (overwrite_ptr k q p ;;;
      set_map (mkMap (sl_addr s) p) ;;; process ;;; set_map (z_map z) ;;; ret p) z1 <> UB).
  { intros q Hq. unfold bind at 1. destruct (overwrite_ptr k q p z1) as [[] z2|? ?| | |] eqn:Eo; try discriminate; auto.
    destruct (touches_overwrite_ptr k q p _ _ _ Eo) as (_ & T2 & T3 & T4 & _).
    apply Hpost. unfold storage_ok in *. rewrite T2, T3, T4. exact Hok'. }
  destruct Hn' as [Hd|(N1 & N2 & N3)].
  - assert (Hpa : (exists q, pos_for_addr (z_map z) (ATrack n) z1 = Ok q z1) \/
                  (exists e, pos_for_addr (z_map z) (ATrack n) z1 = Panic e z1)).
    { assert (Hs : forall a b : N, (exists c, sub_u a b z1 = Ok c z1) \/ sub_u a b z1 = Panic PArith z1).
      { intros a b. unfold sub_u. rewrite Hd. destruct (b <=? a); [left|right]; [eexists|]; reflexivity. }
      assert (Had : forall a b : N, (exists c, add_u a b z1 = Ok c z1) \/ add_u a b z1 = Panic PArith z1).
      { intros a b. unfold add_u. rewrite Hd. destruct (a + b <? umod); [left|right]; [eexists|]; reflexivity. }
      unfold pos_for_addr. cbn [addr_n]. rewrite (bind_ok (ret n) _ z1 n z1 eq_refl).
      destruct (Hs n (pm_in (z_map z))) as [[c E]|E].
      - rewrite (bind_ok _ _ _ _ _ E). destruct (Had c (pm_out (z_map z))) as [[d E']|E']; eauto.
      - rewrite (bind_panic _ _ _ _ _ E). eauto. }
    destruct Hpa as [[q E]|[e E]].
    + rewrite (bind_ok _ _ _ _ _ E). apply Hcont. apply ptr_write_debug; auto.
    + rewrite (bind_panic _ _ _ _ _ E). discriminate.
  - rewrite (bind_ok _ _ _ _ _ (pos_for_ok z1 (z_map z) n N1 ltac:(lia))).
    apply Hcont. rewrite ptr_write_eq; auto; cbn [z_sw z1]; try discriminate; try lia.
Qed.

(** ** Twice the same pointer *)
Lemma correct_past_noop sp : forall gs w,
  Forall (fun g => pg_addr g = sp \/ pg_pos g = []) gs -> correct_past gs sp w = Ok tt w.
Proof.
  induction gs as [|g gs IH]; intros w Hg; [reflexivity|]. inversion Hg as [|? ? H1 H2]; subst.
  cbn [correct_past]. unfold bind at 1. destruct (N.eqb_spec (pg_addr g) sp) as [E|E]; cbn [negb].
  - unfold ret. apply IH; auto.
  - destruct H1 as [|H1]; [contradiction|]. unfold correct_ptrs. rewrite H1. cbn. apply IH; auto.
Qed.

Definition no_stale (z : zs) : Prop :=
  Forall (fun g => pg_addr g = zptr z \/ pg_pos g = []) (pt_current (z_ptrs z) :: pt_past (z_ptrs z)).

Lemma finalize_noop z : no_stale z -> finalize Complete z = Ok tt z.
Proof.
  intros Hn. cbn [finalize]. rewrite co_finalize_past. unfold lift.
  rewrite correct_past_noop by exact Hn. destruct z; reflexivity.
Qed.

Lemma no_stale_written z q t : no_stale z -> no_stale (ptr_written Complete z q t).
Proof.
  intros Hn. unfold no_stale in *. cbn [ptr_written].
  inversion Hn as [|? ? H1 H2]; subst. cbn.
  destruct (N.eqb_spec (zptr z) (pg_addr (pt_current (z_ptrs z)))) as [E|E]; cbn [negb].
  - cbn. constructor; auto.
  - unfold new_ptr_group, group_is_empty. destruct (pg_pos (pt_current (z_ptrs z))) eqn:Eg; cbn.
    + constructor; auto.
    + exfalso. destruct H1; congruence.
Qed.

Lemma push_ptr_presized z s n :
  let q := n - pm_in (z_map z) + pm_out (z_map z) in
  storage_ok (z_sw z) -> pW <= MVA -> slice_fine s -> 0 < l_size (sl_lay s) ->
  pm_in (z_map z) <= n -> (pW | q) -> q + pW <= zpos z ->
  push_end (zpos z) (sl_lay s) (sl_len s) <= zcap z -> no_stale z ->
  exists p z', ser_push_slice Complete s (ATrack n) z = Ok p z' /\
    p = push_start (zpos z) (sl_lay s) /\
    storage_ok (z_sw z') /\ z_map z' = z_map z /\ zptr z' = zptr z /\ zcap z' = zcap z /\
    zpos z' = push_end (zpos z) (sl_lay s) (sl_len s) /\ no_stale z' /\
    read_word (zbuf z') q = Some (zptr z' + p) /\
    (forall i, i < l_size (sl_lay s) * sl_len s -> zbuf z' (p + i) = sl_data s i).
Proof.
  intros q Hok Hmv (Hl & Hn & Hpos) Hsz Hin Hal Hq Hfit Hns. cfg.
  pose proof (push_slice_spec C HA (z_sw z) (sl_lay s) (sl_len s) (sl_data s) Hok Hl Hsz Hn ltac:(auto)) as Hs.
  destruct (push_slice _ _ _ (z_sw z)) as [p w'|e w'| | |] eqn:Ep; try contradiction.
  2:{ exfalso. destruct Hs as (_ & _ & _ & Hm). pose proof (ok_cap_le _ Hok). lia. }
  2:{ exfalso. (* no allocation happens *)
      pose proof (push_slice_eq C HA (z_sw z) (sl_lay s) (sl_len s) (sl_data s) Hok Hl Hsz Hn ltac:(auto)) as He.
      rewrite Ep in He. unfold bind, grow_to in He.
      pose proof (push_end_ge C (zpos z) (sl_lay s) (sl_len s)) as Hge.
      destruct (N.leb_spec (push_start (zpos z) (sl_lay s) + l_size (sl_lay s) * sl_len s)
                  (cap (at_pos (z_sw z) (push_start (zpos z) (sl_lay s))))) as [Hle|Hle]; [discriminate|].
      cbn in Hle. lia. }
  destruct Hs as (Hp & Hpos' & Hok' & _ & Hkeep & Hdata & _ & Hquiet).
  destruct (Hquiet Hfit) as (Q1 & Q2 & _ & _).
  set (z1 := mkZ w' (z_map z) (z_ptrs z)).
  assert (Hge : zpos z <= p) by (rewrite Hp; apply push_start_ge; auto; apply Hl).
  assert (Hx : 0 < l_size (sl_lay s) * sl_len s) by (apply N.mul_pos_pos; lia).
  pose proof (push_end_ge C (zpos z) (sl_lay s) (sl_len s)) as Hend.
  pose proof (ok_pos_le _ Hok'). pose proof (ok_cap_le _ Hok').
  assert (Hw : overwrite_ptr Complete q p z1 = Ok tt (ptr_written Complete z1 q p)).
  { apply ptr_write_eq; auto; cbn [z_sw z1]; lia. }
  exists p, (ptr_written Complete z1 q p). ands; auto.
  - cbn [ser_push_slice]. unfold pw_push_slice, push_raw_slice.
    rewrite (bind_ok _ _ _ _ _ (lift_eq _ _ _ _ Ep)). fold z1.
    rewrite (bind_ok get_map _ z1 (z_map z1) z1 eq_refl).
    rewrite (bind_ok _ _ _ _ _ (pos_for_ok z1 (z_map z1) n Hin ltac:(cbn [z_map z1]; fold q; lia))).
    cbn [z_map z1]. fold q. rewrite (bind_ok _ _ _ _ _ Hw). reflexivity.
  - apply no_stale_written. unfold no_stale in *. cbn [z1 z_sw z_ptrs]. rewrite Q1. exact Hns.
  - cbn. apply read_word_src.
    + assert (HL : ptr w' <> 0 /\ (SA | ptr w') /\ ptr w' + cap w' < umod) by (apply Hok'; lia). lia.
    + intros i Hi. rewrite blit_in by lia. f_equal. lia.
  - intros i Hi. cbn. rewrite blit_out by lia. apply Hdata; exact Hi.
Qed.

Theorem repush z s1 s2 n :
  let q := n - pm_in (z_map z) + pm_out (z_map z) in
  storage_ok (z_sw z) -> pW <= MVA -> slice_fine s1 -> slice_fine s2 ->
  0 < l_size (sl_lay s1) -> 0 < l_size (sl_lay s2) ->
  pm_in (z_map z) <= n -> (pW | q) -> q + pW <= zpos z -> no_stale z ->
  push_end (push_end (zpos z) (sl_lay s1) (sl_len s1)) (sl_lay s2) (sl_len s2) <= zcap z ->
  exists p1 p2 z', (p1 <- ser_push_slice Complete s1 (ATrack n) ;;
                    p2 <- ser_push_slice Complete s2 (ATrack n) ;;
                    finalize Complete ;;; ret (p1, p2)) z = Ok (p1, p2) z' /\
    read_word (zbuf z') q = Some (zptr z' + p2) /\
    (forall i, i < l_size (sl_lay s2) * sl_len s2 -> zbuf z' (p2 + i) = sl_data s2 i).
Proof.
  intros q Hok Hmv F1 F2 S1 S2 Hin Hal Hq Hns Hfit. cfg.
  assert (G1 : push_end (zpos z) (sl_lay s1) (sl_len s1) <= zcap z).
  { pose proof (push_end_ge_pos C (push_end (zpos z) (sl_lay s1) (sl_len s1)) (sl_lay s2) (sl_len s2)). lia. }
  destruct (push_ptr_presized z s1 n Hok Hmv F1 S1 Hin Hal Hq G1 Hns)
    as (p1 & z1 & E1 & P1 & Ok1 & M1 & Pt1 & C1 & Z1 & N1 & _ & _).
  pose proof (push_end_ge_pos C (zpos z) (sl_lay s1) (sl_len s1)).
  destruct (push_ptr_presized z1 s2 n Ok1 Hmv F2 S2) as (p2 & z2 & E2 & P2 & Ok2 & M2 & Pt2 & C2 & Z2 & N2 & W2 & D2);
    rewrite ?M1; auto; try lia.
  { fold q. rewrite Z1. lia. }
  exists p1, p2, z2. ands.
  - rewrite (bind_ok _ _ _ _ _ E1), (bind_ok _ _ _ _ _ E2).
    rewrite (bind_ok _ _ _ _ _ (finalize_noop z2 N2)). reflexivity.
  - rewrite M1 in W2. exact W2.
  - exact D2.
Qed.

End Cfg.
End Misuse.
