(** * Repush: histories in which the same pointer may be written any number of times
    while the buffer moves. *)
From Verif Require Import Base Types Storage Serializer Serialize Spec ArithFacts StorageFacts
  StorageHist MemFacts TypeFacts SerFacts SerMain SerValue SerRoot Moves StorageProps SerProps Corner Misuse.
From Coq Require Import ZifyBool ZifyNat ZifyN Permutation.
Local Open Scope N_scope.

Section Repush.
Context {P : Params}.
Notation cap w := (s_cap (sw_s w)).
Notation pos w := (s_pos (sw_s w)).
Notation ptr w := (s_ptr (sw_s w)).
Notation buf w := (s_buf (sw_s w)).
Notation zpos z := (s_pos (sw_s (z_sw z))).
Notation zbuf z := (s_buf (sw_s (z_sw z))).
Notation zcap z := (s_cap (sw_s (z_sw z))).
Notation zptr z := (s_ptr (sw_s (z_sw z))).

(** A pointer write, as it happened: position, address of the buffer at that moment,
    target position. *)
Record wrote := mkWrote { w_pos : N; w_base : N; w_target : N }.

(** Runs the calls ([VPtr]: serializer_traits/complete.rs:44-76 overwrite_ptr,
    [VOp]: a storage call whose panic is caught) and notes the writes. *)
Fixpoint run_log (evs : list event) : M zs (list wrote) :=
  match evs with
  | [] => ret []
  | VPtr q t :: evs' =>
      a <- lift as_ptr ;;
      overwrite_ptr Complete q t ;;;
      h <- run_log evs' ;;
      ret (mkWrote q a t :: h)
  | VOp o :: evs' => fun z =>
      match run_op o (z_sw z) with
      | Ok _ w' | Panic _ w' => run_log evs' (mkZ w' (z_map z) (z_ptrs z))
      | Abort => Abort
      | UB => UB
      | OutOfFuel => OutOfFuel
      end
  end.

(** As [events_ok], but a position may be written again. *)
Fixpoint calls_ok (evs : list event) (z : zs) : Prop :=
  match evs with
  | [] => True
  | VPtr q t :: evs' =>
      (pW | q) /\ q + pW <= zpos z /\ t <= zpos z /\
      match overwrite_ptr Complete q t z with Ok _ z' => calls_ok evs' z' | _ => True end
  | VOp o :: evs' =>
      op_valid o /\ o <> OClear /\ ~ empty_slice_push (z_sw z) o /\
      match run_op o (z_sw z) with
      | Ok _ w' | Panic _ w' => calls_ok evs' (mkZ w' (z_map z) (z_ptrs z))
      | _ => True
      end
  end.

(** The sum, over the writes at [q] in the list, of how far the buffer has moved since
    (modulo 2^bits), [F] being where it is now. *)
Fixpoint drift (F q : N) (h : list wrote) : N :=
  match h with
  | [] => 0
  | x :: h' => (if w_pos x =? q then F + umod - w_base x else 0) + drift F q h'
  end.

Section Cfg.
Hypothesis C : cfg_ok.
Hypothesis HA : alloc_ok.

Ltac cfg :=
  pose proof (c_SA_pos C); pose proof (c_MVA_pos C); pose proof (c_VA_pos C);
  pose proof (c_VA_MVA C); pose proof (c_MVA_SA C); pose proof (c_MAXC C);
  pose proof (c_MVA_le_MAXC C); pose proof (c_sum C); pose proof (c_umod C);
  pose proof (c_SA_lt_imax C); pose proof (pW_vals (c_machine C)).

(** ** Correcting pointers, positions possibly repeated *)
Fixpoint times (q : N) (l : list N) (s : N) : N :=
  match l with [] => 0 | x :: l' => (if x =? q then s else 0) + times q l' s end.

Definition holds_word (b : mem) (q : N) : Prop := exists x, x < umod /\ word_at_is b q x.

Lemma correct_all_gen sh : forall l w,
  (0 < cap w -> (SA | ptr w)) -> pW <= MVA ->
  (forall q, In q l -> (pW | q) /\ q + pW <= cap w /\ holds_word (buf w) q) ->
  exists b', correct_all sh l w = Ok tt (with_buf w b') /\
    (forall q x, (pW | q) -> x < umod -> word_at_is (buf w) q x ->
       word_at_is b' q ((x + times q l sh) mod umod)) /\
    (forall i, (forall q, In q l -> i < q \/ q + pW <= i) -> b' i = buf w i).
Proof.
  induction l as [|q l IH]; intros w Hptr Hmv Hq; cfg.
  - exists (buf w). cbn. rewrite with_buf_same. split; [reflexivity|]. split; [|auto].
    intros q x _ Hx Hw. rewrite N.add_0_r, N.mod_small by exact Hx. exact Hw.
  - cbn [correct_all]. destruct (Hq q (or_introl eq_refl)) as (Q1 & Q2 & x0 & Q3 & Q4).
    assert (Hpd : (pW | ptr w)).
    { eapply divide_trans; [|apply Hptr; lia]. eapply divide_trans; [|apply (c_MVA_dvd_SA C)].
      apply pow2_divide; [apply pW_pow2, (c_machine C)|apply (c_MVA C)|exact Hmv]. }
    set (b1 := blit (buf w) q pW (word_src (wrapping_add x0 sh))).
    assert (Hstep : correct_ptr sh q w = Ok tt (with_buf w b1)).
    { unfold correct_ptr. rewrite (proj2 (N.leb_le _ _) Q2).
      rewrite (proj2 (mod_eqb_divide pW (ptr w + q) ltac:(lia))) by (apply N.divide_add_r; assumption).
      cbn [andb]. rewrite (read_word_is _ _ _ Q3 Q4). reflexivity. }
    erewrite bind_ok by exact Hstep.
    assert (Hb1 : forall q' x, (pW | q') -> word_at_is (buf w) q' x -> x < umod ->
              word_at_is b1 q' ((x + (if q =? q' then sh else 0)) mod umod)).
    { intros q' x Hd Hw Hx i Hi. unfold b1. destruct (N.eqb_spec q q') as [<-|Hne].
      - rewrite blit_in by lia.
        assert (x = x0) as ->.
        { pose proof (read_word_is _ _ _ Hx Hw) as R1. rewrite (read_word_is _ _ _ Q3 Q4) in R1. congruence. }
        unfold wrapping_add. f_equal. lia.
      - rewrite N.add_0_r, N.mod_small by exact Hx. rewrite blit_out; [apply Hw; exact Hi|].
        destruct (words_apart q q' ltac:(lia) Q1 Hd Hne); lia. }
    destruct (IH (with_buf w b1)) as (b' & E & F1 & F2); auto.
    { intros q' Hin. destruct (Hq q' (or_intror Hin)) as (D1 & D2 & x & D3 & D4). cbn. ands; auto.
      exists ((x + (if q =? q' then sh else 0)) mod umod). split; [apply N.mod_lt; lia|].
      apply Hb1; auto. }
    exists b'. rewrite E. split; [reflexivity|]. split.
    + intros q' x Hd Hx Hw. cbn [times].
      specialize (F1 q' _ Hd (N.mod_lt _ umod ltac:(lia)) (Hb1 q' x Hd Hw Hx)).
      rewrite N.add_mod_idemp_l in F1 by lia. rewrite N.add_assoc. exact F1.
    + intros i Hi. rewrite F2.
      * cbn. unfold b1. apply blit_out. specialize (Hi q (or_introl eq_refl)). lia.
      * intros q' Hin. apply Hi. right; exact Hin.
Qed.

Fixpoint total (sp q : N) (gs : list pgroup) : N :=
  match gs with
  | [] => 0
  | g :: gs' => times q (pg_pos g) (sp + umod - pg_addr g) + total sp q gs'
  end.

Lemma times_mod q s l : times q l (s mod umod) mod umod = times q l s mod umod.
Proof.
  cfg. induction l as [|x l IH]; cbn [times]; [reflexivity|].
  rewrite N.add_mod by lia. rewrite IH. symmetry. rewrite N.add_mod by lia.
  f_equal. f_equal. destruct (x =? q); [|reflexivity]. rewrite N.mod_mod by lia. reflexivity.
Qed.

Lemma times_umod q l : times q l umod mod umod = 0.
Proof.
  cfg. induction l as [|x l IH]; cbn [times]; [apply N.mod_0_l; lia|].
  rewrite N.add_mod, IH by lia. destruct (x =? q).
  - rewrite N.mod_same by lia. reflexivity.
  - rewrite N.mod_0_l by lia. reflexivity.
Qed.

Lemma correct_past_gen sp : forall gs w,
  (0 < cap w -> (SA | ptr w)) -> pW <= MVA -> sp < umod ->
  (forall g q, In g gs -> In q (pg_pos g) -> pg_addr g < umod /\ (pW | q) /\ q + pW <= cap w /\ holds_word (buf w) q) ->
  exists b', correct_past gs sp w = Ok tt (with_buf w b') /\
    (forall q x, (pW | q) -> x < umod -> word_at_is (buf w) q x ->
       word_at_is b' q ((x + total sp q gs) mod umod)) /\
    (forall i, (forall q, In q (flat_map pg_pos gs) -> i < q \/ q + pW <= i) -> b' i = buf w i).
Proof.
  induction gs as [|g gs IH]; intros w Hptr Hmv Hsp Hq; cfg.
  - exists (buf w). cbn. rewrite with_buf_same. split; [reflexivity|]. split; [|auto].
    intros q x _ Hx Hw. rewrite N.add_0_r, N.mod_small by exact Hx. exact Hw.
  - cbn [correct_past flat_map] in *.
    assert (Hg1 : exists b1,
       (if negb (pg_addr g =? sp) then correct_ptrs g sp else ret tt) w = Ok tt (with_buf w b1) /\
       (forall q x, (pW | q) -> x < umod -> word_at_is (buf w) q x ->
          word_at_is b1 q ((x + times q (pg_pos g) (sp + umod - pg_addr g)) mod umod)) /\
       (forall i, (forall q, In q (pg_pos g) -> i < q \/ q + pW <= i) -> b1 i = buf w i)).
    { destruct (N.eqb_spec (pg_addr g) sp) as [He|Hne]; cbn [negb].
      - exists (buf w). rewrite with_buf_same. split; [reflexivity|]. split; [|auto].
        intros q x _ Hx Hw. rewrite He. replace (sp + umod - sp) with umod by lia.
        rewrite N.add_mod, times_umod, N.add_0_r, N.mod_mod, N.mod_small by lia. exact Hw.
      - unfold correct_ptrs.
        destruct (pg_pos g) as [|q0 l0] eqn:Eg.
        + exists (buf w). cbn. rewrite with_buf_same. split; [reflexivity|]. split; [|auto].
          intros q x _ Hx Hw. rewrite N.add_0_r, N.mod_small by exact Hx. exact Hw.
        + rewrite <- Eg in *.
          assert (Hga : pg_addr g < umod).
          { apply (Hq g q0); [left; reflexivity|rewrite Eg; left; reflexivity]. }
          destruct (correct_all_gen (wrapping_sub sp (pg_addr g)) (pg_pos g) w) as (b1 & A1 & A2 & A3); auto.
          { intros q Hin. apply (Hq g q (or_introl eq_refl) Hin). }
          exists b1. split; [exact A1|]. split; [|exact A3].
          intros q x Hd Hx Hw. specialize (A2 q x Hd Hx Hw).
          unfold wrapping_sub in A2. rewrite N.add_mod, times_mod, <- N.add_mod in A2 by lia.
          exact A2. }
    destruct Hg1 as (b1 & E1 & F1 & F2).
    erewrite bind_ok by exact E1.
    destruct (IH (with_buf w b1)) as (b' & E2 & F3 & F4); auto.
    { intros g' q Hg Hin. destruct (Hq g' q (or_intror Hg) Hin) as (D1 & D2 & D3 & x & D4 & D5). cbn.
      ands; auto. eexists. split; [|apply F1; eauto]. apply N.mod_lt. lia. }
    exists b'. rewrite E2. split; [reflexivity|]. split.
    + intros q x Hd Hx Hw. cbn [total].
      specialize (F3 q _ Hd (N.mod_lt _ umod ltac:(lia)) (F1 q x Hd Hx Hw)).
      rewrite N.add_mod_idemp_l in F3 by lia. rewrite N.add_assoc. exact F3.
    + intros i Hi. rewrite F4.
      * apply F2. intros q Hin. apply Hi. apply in_or_app; auto.
      * intros q Hin. apply Hi. apply in_or_app; auto.
Qed.

(** ** The invariant of a history *)
Definition rec_of (x : wrote) : N * N := (w_base x, w_pos x).

Definition hinv (z : zs) (h : list wrote) : Prop :=
  storage_ok (z_sw z) /\ recs (z_ptrs z) = map rec_of h /\
  (forall x, In x h -> (pW | w_pos x) /\ w_pos x + pW <= zpos z /\ w_base x < umod /\ w_target x <= zpos z) /\
  (forall h1 x h2, h = h1 ++ x :: h2 -> ~ In (w_pos x) (map w_pos h2) ->
     w_base x + w_target x < umod /\ word_at_is (zbuf z) (w_pos x) (w_base x + w_target x)).

Lemma last_write q : forall h, In q (map w_pos h) ->
  exists h1 x h2, h = h1 ++ x :: h2 /\ w_pos x = q /\ ~ In q (map w_pos h2).
Proof.
  induction h as [|y h IH]; intros Hin; [contradiction|]. cbn in Hin.
  destruct (in_dec N.eq_dec q (map w_pos h)) as [Hi|Hi].
  - destruct (IH Hi) as (h1 & x & h2 & -> & A & B). exists (y :: h1), x, h2. auto.
  - destruct Hin as [E|Hin]; [|contradiction]. exists [], y, h. auto.
Qed.

Lemma recs_written z q t :
  recs (z_ptrs (ptr_written Complete z q t)) = recs (z_ptrs z) ++ [(zptr z, q)].
Proof.
  cbn [ptr_written z_ptrs]. unfold recs.
  destruct (N.eqb_spec (zptr z) (pg_addr (pt_current (z_ptrs z)))) as [E|E]; cbn [negb].
  - cbn [pt_current pt_past]. unfold group_recs at 2. cbn [group_push pg_addr pg_pos].
    rewrite map_app. cbn [map]. rewrite app_assoc. rewrite E. reflexivity.
  - unfold new_ptr_group, group_is_empty. destruct (pg_pos (pt_current (z_ptrs z))) as [|p l] eqn:Eg;
      cbn [pt_current pt_past].
    + unfold group_recs at 2 4. rewrite Eg. cbn. rewrite !app_nil_r. reflexivity.
    + rewrite flat_map_app_r. unfold group_recs at 3. cbn. reflexivity.
Qed.

Lemma hinv_written z h q t :
  hinv z h -> (pW | q) -> q + pW <= zpos z -> t <= zpos z ->
  hinv (ptr_written Complete z q t) (h ++ [mkWrote q (zptr z) t]).
Proof.
  intros (Hok & Hr & Hp & Hw) Hd Hle Ht. cfg.
  pose proof (ok_pos_le _ Hok). pose proof (ok_cap_le _ Hok).
  assert (Hlegal : zptr z <> 0 /\ (SA | zptr z) /\ zptr z + zcap z < umod) by (apply Hok; lia).
  destruct Hlegal as (L1 & L2 & L3).
  unfold hinv. ands.
  - exact Hok.
  - rewrite recs_written, Hr, map_app. reflexivity.
  - intros x Hin. apply in_app_or in Hin. destruct Hin as [Hin|[<-|[]]]; cbn; [apply Hp; exact Hin|].
    ands; auto. lia.
  - intros h1 x h2 He Hni.
    destruct h2 as [|y h2' _] using rev_ind.
    + apply app_inj_tail in He. destruct He as [-> <-]. cbn. split; [lia|].
      intros i Hi. rewrite blit_in by lia. f_equal. lia.
    + assert (He' : h ++ [mkWrote q (zptr z) t] = (h1 ++ x :: h2') ++ [y]) by (rewrite He, <- app_assoc; reflexivity).
      apply app_inj_tail in He'. destruct He' as [Hh Hy]. subst y.
      assert (Hne : w_pos x <> q).
      { intros E. apply Hni. rewrite map_app. apply in_or_app. right. left. cbn. auto. }
      assert (Hni' : ~ In (w_pos x) (map w_pos h2')).
      { intros Hi. apply Hni. rewrite map_app. apply in_or_app. left. exact Hi. }
      destruct (Hw h1 x h2' Hh Hni') as [W1 W2]. split; [exact W1|].
      assert (Hdx : (pW | w_pos x)) by (apply Hp; rewrite Hh; apply in_or_app; right; left; reflexivity).
      intros i Hi. cbn. rewrite blit_out; [apply W2; exact Hi|].
      destruct (words_apart q (w_pos x) ltac:(lia) Hd Hdx ltac:(auto)); lia.
Qed.

Lemma hinv_push z h w' :
  hinv z h -> storage_ok w' -> zpos z <= pos w' -> (forall i, i < zpos z -> buf w' i = zbuf z i) ->
  hinv (mkZ w' (z_map z) (z_ptrs z)) h.
Proof.
  intros (Hok & Hr & Hp & Hw) Hok' Hle Hb. unfold hinv; cbn [z_sw z_ptrs]. ands; auto.
  - intros x Hin. destruct (Hp x Hin) as (A & B & D & D'). ands; auto; lia.
  - intros h1 x h2 He Hni. destruct (Hw h1 x h2 He Hni) as [W1 W2]. split; [exact W1|].
    intros i Hi. rewrite Hb; [apply W2; exact Hi|].
    assert (Hin : In x h) by (rewrite He; apply in_or_app; right; left; reflexivity).
    destruct (Hp x Hin) as (A & B & D). lia.
Qed.

Lemma log_inv : pW <= MVA -> forall evs z h,
  hinv z h -> calls_ok evs z ->
  match run_log evs z with
  | Ok h' z' => hinv z' (h ++ h')
  | Abort => alloc_failed
  | _ => False
  end.
Proof.
  intros Hmv. induction evs as [|[q t|o] evs IH]; intros z h Hz Hev.
  - cbn. rewrite app_nil_r. exact Hz.
  - cbn [calls_ok] in Hev. destruct Hev as (E1 & E2 & E3 & E4).
    pose proof (proj1 Hz) as Hok.
    pose proof (ptr_write_eq C Complete z q t eq_refl Hok Hmv E1 E2 E3) as Heq.
    rewrite Heq in E4.
    cbn [run_log].
    rewrite (bind_ok (lift as_ptr) _ z (zptr z) z) by (destruct z; reflexivity).
    erewrite bind_ok by exact Heq.
    specialize (IH _ _ (hinv_written z h q t Hz E1 E2 E3) E4).
    unfold bind, ret.
    destruct (run_log evs (ptr_written Complete z q t)) as [h' z'|e z'| | |]; auto.
    rewrite <- app_assoc in IH. exact IH.
  - cbn [calls_ok] in Hev. destruct Hev as (E1 & E2 & E3 & E4). cbn [run_log].
    pose proof (proj1 Hz) as Hok.
    pose proof (run_op_spec C HA (z_sw z) o Hok E1) as H1'.
    pose proof (run_op_keep C HA (z_sw z) o Hok E1 E2) as H2'.
    destruct (run_op o (z_sw z)) as [r w'|e w'| | |]; auto.
    + destruct H2' as [K1 K2]. apply IH; [|exact E4]. apply hinv_push; auto. apply H1'.
    + destruct H2' as [K1 K2]. apply IH; [|exact E4]. apply hinv_push; auto. apply H1'.
Qed.

(** ** finalize *)
Fixpoint drift_recs (F q : N) (l : list (N * N)) : N :=
  match l with
  | [] => 0
  | (a, p) :: l' => (if p =? q then F + umod - a else 0) + drift_recs F q l'
  end.

Lemma drift_recs_app F q l1 l2 : drift_recs F q (l1 ++ l2) = drift_recs F q l1 + drift_recs F q l2.
Proof. induction l1 as [|[a p] l1 IH]; cbn; lia. Qed.

Lemma drift_rec_of F q h : drift_recs F q (map rec_of h) = drift F q h.
Proof. induction h as [|x h IH]; cbn; [reflexivity|]. rewrite IH. reflexivity. Qed.

Lemma drift_group F q g : drift_recs F q (group_recs g) = times q (pg_pos g) (F + umod - pg_addr g).
Proof. unfold group_recs. induction (pg_pos g) as [|x l IH]; cbn; [reflexivity|]. rewrite IH. reflexivity. Qed.

Lemma drift_total F q pt :
  drift_recs F q (recs pt) = total F q (pt_current pt :: pt_past pt).
Proof.
  unfold recs. rewrite drift_recs_app, drift_group. cbn [total].
  assert (Hx : drift_recs F q (flat_map group_recs (pt_past pt)) = total F q (pt_past pt)).
  { induction (pt_past pt) as [|g gs IH]; cbn; [reflexivity|]. rewrite drift_recs_app, drift_group, IH. reflexivity. }
  lia.
Qed.

Lemma drift_app F q h1 h2 : drift F q (h1 ++ h2) = drift F q h1 + drift F q h2.
Proof. induction h1 as [|x h1 IH]; cbn; lia. Qed.

Lemma drift_none F q h : ~ In q (map w_pos h) -> drift F q h = 0.
Proof.
  induction h as [|x h IH]; cbn; intros Hn; [reflexivity|].
  destruct (N.eqb_spec (w_pos x) q); [exfalso; auto|]. rewrite IH by auto. reflexivity.
Qed.

Lemma hinv_finalize z h :
  hinv z h -> pW <= MVA ->
  exists z', finalize Complete z = Ok tt z' /\
    zpos z' = zpos z /\ zcap z' = zcap z /\ zptr z' = zptr z /\ sw_trace (z_sw z') = sw_trace (z_sw z) /\
    (forall h1 x h2, h = h1 ++ x :: h2 -> ~ In (w_pos x) (map w_pos h2) ->
       read_word (zbuf z') (w_pos x) =
       Some ((zptr z + w_target x + drift (zptr z) (w_pos x) h1) mod umod)) /\
    (forall i, (forall x, In x h -> i < w_pos x \/ w_pos x + pW <= i) -> zbuf z' i = zbuf z i).
Proof.
  intros (Hok & Hr & Hp & Hw) Hmv. cfg.
  cbn [finalize]. rewrite co_finalize_past.
  set (gs := pt_current (z_ptrs z) :: pt_past (z_ptrs z)).
  assert (Hgs : forall g q, In g gs -> In q (pg_pos g) -> In (pg_addr g, q) (recs (z_ptrs z))).
  { intros g q Hg Hin. unfold recs. apply in_or_app. destruct Hg as [<-|Hg].
    - right. unfold group_recs. apply in_map. exact Hin.
    - left. apply in_flat_map. exists g. split; [exact Hg|]. unfold group_recs. apply in_map. exact Hin. }
  assert (Hsg : forall g q, In g gs -> In q (pg_pos g) -> exists x, In x h /\ w_base x = pg_addr g /\ w_pos x = q).
  { intros g q Hg Hin. specialize (Hgs g q Hg Hin). rewrite Hr in Hgs. apply in_map_iff in Hgs.
    destruct Hgs as (x & E & Hx). exists x. unfold rec_of in E. inversion E; subst. auto. }
  pose proof (ok_pos_le _ Hok) as Hpc. pose proof (ok_cap_le _ Hok) as Hcm.
  assert (Hcap : h <> [] -> 0 < zcap z).
  { intros Hn. destruct h as [|x h']; [congruence|]. destruct (Hp x (or_introl eq_refl)) as (_ & A & _). lia. }
  assert (Hsp : zptr z < umod).
  { destruct Hok as (O1 & O2 & O3 & O4 & O5 & O6).
    destruct (N.eq_dec (zcap z) 0) as [E|E]; [rewrite (O5 E)|destruct (O6 ltac:(lia)) as (_ & _ & O7)]; lia. }
  destruct (correct_past_gen (zptr z) gs (z_sw z)) as (b' & E & F1 & F2); auto.
  { intros Hc. apply Hok. exact Hc. }
  { intros g q Hg Hin. destruct (Hsg g q Hg Hin) as (x & X1 & X2 & X3). subst q. rewrite <- X2.
    destruct (Hp x X1) as (D1 & D2 & D3 & _). ands; auto; [lia|].
    destruct (last_write (w_pos x) h (in_map w_pos _ _ X1)) as (h1 & y & h2 & Hh & Hy & Hni).
    rewrite <- Hy in *. destruct (Hw h1 y h2 Hh Hni) as [W1 W2]. exists (w_base y + w_target y). auto. }
  exists (mkZ (with_buf (z_sw z) b') (z_map z) (z_ptrs z)).
  split. { apply lift_eq. exact E. }
  cbn [z_sw with_buf with_store sw_s s_pos s_cap s_ptr s_buf sw_trace]. ands; auto.
  - intros h1 x h2 Hh Hni.
    assert (Hin : In x h) by (rewrite Hh; apply in_or_app; right; left; reflexivity).
    destruct (Hp x Hin) as (D1 & D2 & D3 & _). destruct (Hw h1 x h2 Hh Hni) as [W1 W2].
    apply read_word_is; [apply N.mod_lt; lia|].
    specialize (F1 _ _ D1 W1 W2).
    assert (Heq : (w_base x + w_target x + total (zptr z) (w_pos x) gs) mod umod =
                  (zptr z + w_target x + drift (zptr z) (w_pos x) h1) mod umod).
    { unfold gs. rewrite <- drift_total, Hr, drift_rec_of, Hh, drift_app. cbn [drift].
      rewrite N.eqb_refl, (drift_none _ _ h2 Hni).
      replace (w_base x + w_target x + (drift (zptr z) (w_pos x) h1 + (zptr z + umod - w_base x + 0)))
        with (zptr z + w_target x + drift (zptr z) (w_pos x) h1 + 1 * umod) by lia.
      rewrite N.mod_add by lia. reflexivity. }
    rewrite Heq in F1. exact F1.
  - intros i Hi. apply F2. intros q Hq. apply in_flat_map in Hq. destruct Hq as (g & G1 & G2).
    destruct (Hsg g q G1 G2) as (x & X1 & X2 & X3). subst q. apply Hi. exact X1.
Qed.

(** ** finalize in any state: exactly when it goes wrong *)

Definition bad_word (w : sw) (q : N) : Prop := cap w < q + pW \/ read_word (buf w) q = None.

Lemma bad_word_dec w q : {bad_word w q} + {~ bad_word w q}.
Proof.
  unfold bad_word. destruct (cap w <? q + pW) eqn:El; [left; left; lia|].
  destruct (read_word (buf w) q) eqn:E; [right; intros [X|X]; [lia|discriminate]|left; auto].
Qed.

Lemma bad_ext w w' q : cap w' = cap w -> (forall i, i < pW -> buf w' (q + i) = buf w (q + i)) ->
  (bad_word w' q <-> bad_word w q).
Proof.
  intros Hc Hb. unfold bad_word. rewrite Hc, (read_word_ext (buf w') (buf w) q q Hb). tauto.
Qed.

Lemma ptr_word_aligned w : (0 < cap w -> (SA | ptr w)) -> pW <= MVA -> 0 < cap w -> (pW | ptr w).
Proof.
  intros Hptr Hmv Hc. eapply divide_trans; [|apply Hptr; lia]. eapply divide_trans; [|apply (c_MVA_dvd_SA C)].
  apply pow2_divide; [apply pW_pow2, (c_machine C)|apply (c_MVA C)|exact Hmv].
Qed.

Lemma correct_ptr_bad sh q w : (0 < cap w -> (SA | ptr w)) -> pW <= MVA -> (pW | q) ->
  (bad_word w q -> correct_ptr sh q w = UB) /\
  (~ bad_word w q -> exists b, correct_ptr sh q w = Ok tt (with_buf w b) /\
     (forall q', (pW | q') -> (bad_word (with_buf w b) q' <-> bad_word w q'))).
Proof.
  intros Hptr Hmv Hd. cfg. unfold correct_ptr. split.
  - intros [Hb|Hb].
    + rewrite (proj2 (N.leb_gt _ _) Hb). reflexivity.
    + rewrite Hb. destruct (_ && _); reflexivity.
  - intros Hn. assert (Hc : q + pW <= cap w) by (unfold bad_word in Hn; lia).
    rewrite (proj2 (N.leb_le _ _) Hc).
    rewrite (proj2 (mod_eqb_divide pW (ptr w + q) ltac:(lia)))
      by (apply N.divide_add_r; [apply ptr_word_aligned; auto; lia|exact Hd]).
    cbn [andb]. destruct (read_word (buf w) q) as [x|] eqn:Ex; [|exfalso; apply Hn; right; exact Ex].
    eexists. split; [reflexivity|]. intros q' Hd'. destruct (N.eq_dec q q') as [<-|Hne].
    + split; intros X; exfalso; [|contradiction]. destruct X as [X|X]; cbn in X; [lia|].
      erewrite read_word_src in X; [discriminate| |].
      2:{ intros i Hi. rewrite blit_in by lia. f_equal. lia. }
      apply N.mod_lt. lia.
    + apply bad_ext; [reflexivity|]. intros i Hi. cbn. apply blit_out.
      destruct (words_apart q q' ltac:(lia) Hd Hd' Hne); lia.
Qed.

Lemma correct_all_bad sh : forall l w, (0 < cap w -> (SA | ptr w)) -> pW <= MVA -> (forall q, In q l -> (pW | q)) ->
  ((exists q, In q l /\ bad_word w q) -> correct_all sh l w = UB) /\
  (~ (exists q, In q l /\ bad_word w q) -> exists b, correct_all sh l w = Ok tt (with_buf w b) /\
     (forall q', (pW | q') -> (bad_word (with_buf w b) q' <-> bad_word w q'))).
Proof.
  induction l as [|q l IH]; intros w Hptr Hmv Hd.
  - split; [intros (q & [] & _)|]. intros _. exists (buf w). rewrite with_buf_same. split; [reflexivity|tauto].
  - destruct (correct_ptr_bad sh q w Hptr Hmv (Hd q (or_introl eq_refl))) as [A B]. cbn [correct_all].
    destruct (bad_word_dec w q) as [Hb|Hb].
    + split; [intros _; unfold bind; rewrite (A Hb); reflexivity|].
      intros Hn. exfalso. apply Hn. exists q. split; [left; reflexivity|exact Hb].
    + destruct (B Hb) as (b & E & Hk). erewrite bind_ok by exact E.
      destruct (IH (with_buf w b)) as [A2 B2]; auto. { intros q' Hin. apply Hd. right; exact Hin. }
      assert (Hiff : (exists q', In q' l /\ bad_word (with_buf w b) q') <-> (exists q', In q' (q :: l) /\ bad_word w q')).
      { split.
        - intros (q' & X1 & X2). exists q'. split; [right; exact X1|]. apply Hk; auto. apply Hd. right; exact X1.
        - intros (q' & [<-|X1] & X2); [contradiction|]. exists q'. split; [exact X1|].
          apply Hk; auto. apply Hd. right; exact X1. }
      split.
      * intros Hx. apply A2. apply Hiff. exact Hx.
      * intros Hx. destruct B2 as (b2 & E2 & Hk2). { intros Hy. apply Hx, Hiff, Hy. }
        exists b2. split; [exact E2|]. intros q' Hd'. rewrite (Hk2 q' Hd'). apply Hk; exact Hd'.
Qed.

Lemma correct_past_bad sp : forall gs w, (0 < cap w -> (SA | ptr w)) -> pW <= MVA ->
  (forall g q, In g gs -> In q (pg_pos g) -> (pW | q)) ->
  let bad := exists g q, In g gs /\ In q (pg_pos g) /\ pg_addr g <> sp /\ bad_word w q in
  (bad -> correct_past gs sp w = UB) /\
  (~ bad -> exists b, correct_past gs sp w = Ok tt (with_buf w b) /\
     (forall q', (pW | q') -> (bad_word (with_buf w b) q' <-> bad_word w q'))).
Proof.
  induction gs as [|g gs IH]; intros w Hptr Hmv Hd bad.
  - split; [intros (g & q & [] & _)|]. intros _. exists (buf w). rewrite with_buf_same. split; [reflexivity|tauto].
  - cbn [correct_past].
    assert (Hstep : ((pg_addr g <> sp /\ exists q, In q (pg_pos g) /\ bad_word w q) ->
       (if negb (pg_addr g =? sp) then correct_ptrs g sp else ret tt) w = UB) /\
       (~ (pg_addr g <> sp /\ exists q, In q (pg_pos g) /\ bad_word w q) ->
         exists b, (if negb (pg_addr g =? sp) then correct_ptrs g sp else ret tt) w = Ok tt (with_buf w b) /\
           (forall q', (pW | q') -> (bad_word (with_buf w b) q' <-> bad_word w q')))).
    { destruct (N.eqb_spec (pg_addr g) sp) as [He|Hne]; cbn [negb].
      - split; [intros [X _]; contradiction|]. intros _. exists (buf w). rewrite with_buf_same. split; [reflexivity|tauto].
      - unfold correct_ptrs.
        destruct (correct_all_bad (wrapping_sub sp (pg_addr g)) (pg_pos g) w Hptr Hmv) as [A B].
        { intros q Hin. apply (Hd g q (or_introl eq_refl) Hin). }
        split; [intros [_ X]; auto|]. intros X. apply B. intros Y. apply X. auto. }
    destruct Hstep as [A B].
    assert (Hdec : {pg_addr g <> sp /\ exists q, In q (pg_pos g) /\ bad_word w q} +
                   {~ (pg_addr g <> sp /\ exists q, In q (pg_pos g) /\ bad_word w q)}).
    { destruct (N.eq_dec (pg_addr g) sp) as [He|Hne]; [right; tauto|].
      destruct (List.Exists_dec (bad_word w) (pg_pos g) (bad_word_dec w)) as [X|X];
        rewrite Exists_exists in X; [left; auto|right; tauto]. }
    destruct Hdec as [Hb|Hb].
    + split; [intros _; unfold bind; rewrite (A Hb); reflexivity|].
      intros Hn. exfalso. apply Hn. destruct Hb as (X & q & Y & Z). exists g, q. ands; auto. left; reflexivity.
    + destruct (B Hb) as (b & E & Hk). erewrite bind_ok by exact E.
      destruct (IH (with_buf w b)) as [A2 B2]; auto. { intros g' q Hg Hin. apply (Hd g' q); auto. right; exact Hg. }
      assert (Hiff : (exists g' q', In g' gs /\ In q' (pg_pos g') /\ pg_addr g' <> sp /\ bad_word (with_buf w b) q') <-> bad).
      { unfold bad. split.
        - intros (g' & q' & X1 & X2 & X3 & X4). exists g', q'. ands; auto; [right; exact X1|].
          apply Hk; auto. apply (Hd g' q'); auto. right; exact X1.
        - intros (g' & q' & [<-|X1] & X2 & X3 & X4); [exfalso; apply Hb; eauto|].
          exists g', q'. ands; auto. apply Hk; auto. apply (Hd g' q'); auto. right; exact X1. }
      split.
      * intros Hx. apply A2. apply Hiff. exact Hx.
      * intros Hx. destruct B2 as (b2 & E2 & Hk2). { intros Hy. apply Hx, Hiff, Hy. }
        exists b2. split; [exact E2|]. intros q' Hd'. rewrite (Hk2 q' Hd'). apply Hk; exact Hd'.
Qed.

(** Any safe storage call (clear included), any pointer write that is in range when made. *)
Fixpoint any_calls_ok (evs : list event) (z : zs) : Prop :=
  match evs with
  | [] => True
  | VPtr q t :: evs' =>
      (pW | q) /\ q + pW <= zpos z /\ t <= zpos z /\
      match overwrite_ptr Complete q t z with Ok _ z' => any_calls_ok evs' z' | _ => True end
  | VOp o :: evs' =>
      op_valid o /\ ~ empty_slice_push (z_sw z) o /\
      match run_op o (z_sw z) with
      | Ok _ w' | Panic _ w' => any_calls_ok evs' (mkZ w' (z_map z) (z_ptrs z))
      | _ => True
      end
  end.

Definition rinv (z : zs) (h : list wrote) : Prop :=
  storage_ok (z_sw z) /\ recs (z_ptrs z) = map rec_of h /\ (forall x, In x h -> (pW | w_pos x)).

Lemma log_rinv : pW <= MVA -> forall evs z h,
  rinv z h -> any_calls_ok evs z ->
  match run_log evs z with
  | Ok h' z' => rinv z' (h ++ h')
  | Abort => alloc_failed
  | _ => False
  end.
Proof.
  intros Hmv. induction evs as [|[q t|o] evs IH]; intros z h Hz Hev.
  - cbn. rewrite app_nil_r. exact Hz.
  - cbn [any_calls_ok] in Hev. destruct Hev as (E1 & E2 & E3 & E4).
    destruct Hz as (Hok & Hr & Hd).
    pose proof (ptr_write_eq C Complete z q t eq_refl Hok Hmv E1 E2 E3) as Heq.
    rewrite Heq in E4.
    cbn [run_log].
    rewrite (bind_ok (lift as_ptr) _ z (zptr z) z) by (destruct z; reflexivity).
    erewrite bind_ok by exact Heq.
    assert (Hz1 : rinv (ptr_written Complete z q t) (h ++ [mkWrote q (zptr z) t])).
    { unfold rinv. ands.
      - exact Hok.
      - rewrite recs_written, Hr, map_app. reflexivity.
      - intros x Hin. apply in_app_or in Hin. destruct Hin as [Hin|[<-|[]]]; auto. }
    specialize (IH _ _ Hz1 E4). unfold bind, ret.
    destruct (run_log evs (ptr_written Complete z q t)) as [h' z'|e z'| | |]; auto.
    rewrite <- app_assoc in IH. exact IH.
  - cbn [any_calls_ok] in Hev. destruct Hev as (E1 & E3 & E4). cbn [run_log].
    destruct Hz as (Hok & Hr & Hd).
    pose proof (run_op_spec C HA (z_sw z) o Hok E1) as H1'.
    assert (Hgo : forall w', storage_ok w' -> rinv (mkZ w' (z_map z) (z_ptrs z)) h) by (intros; unfold rinv; auto).
    destruct (run_op o (z_sw z)) as [r w'|e w'| | |]; auto.
    + apply IH; [|exact E4]. apply Hgo, H1'.
    + apply IH; [|exact E4]. apply Hgo, H1'.
Qed.

Lemma rinv_finalize z h : rinv z h -> pW <= MVA ->
  let bad := exists x, In x h /\ w_base x <> zptr z /\ bad_word (z_sw z) (w_pos x) in
  (bad -> finalize Complete z = UB) /\ (~ bad -> exists z', finalize Complete z = Ok tt z' /\
     zpos z' = zpos z /\ zcap z' = zcap z /\ zptr z' = zptr z).
Proof.
  intros (Hok & Hr & Hd) Hmv bad. cbn [finalize]. rewrite co_finalize_past.
  set (gs := pt_current (z_ptrs z) :: pt_past (z_ptrs z)).
  assert (Hgs : forall a q, (exists g, In g gs /\ In q (pg_pos g) /\ pg_addr g = a) <-> In (a, q) (recs (z_ptrs z))).
  { intros a q. unfold recs, gs. rewrite in_app_iff, in_flat_map. unfold group_recs.
    split.
    - intros (g & [<-|Hg] & Hq & <-); [right; apply in_map; exact Hq|left].
      exists g. split; [exact Hg|]. apply in_map; exact Hq.
    - intros [(g & Hg & Hi)|Hi]; apply in_map_iff in Hi; destruct Hi as (q' & E & Hi); inversion E; subst.
      + exists g. ands; auto. right; exact Hg.
      + eexists. ands; [left; reflexivity|exact Hi|reflexivity]. }
  assert (Hsg : forall a q, In (a, q) (recs (z_ptrs z)) <-> exists x, In x h /\ w_base x = a /\ w_pos x = q).
  { intros a q. rewrite Hr, in_map_iff. unfold rec_of. split.
    - intros (x & E & Hx). inversion E; subst. eauto.
    - intros (x & Hx & <- & <-). eauto. }
  destruct (correct_past_bad (zptr z) gs (z_sw z)) as [A B]; auto.
  { intros Hc. apply Hok. exact Hc. }
  { intros g q Hg Hin. destruct (proj1 (Hsg (pg_addr g) q)) as (x & X1 & X2 & <-); [apply Hgs; eauto|]. auto. }
  assert (Hiff : (exists g q, In g gs /\ In q (pg_pos g) /\ pg_addr g <> zptr z /\ bad_word (z_sw z) q) <-> bad).
  { unfold bad. split.
    - intros (g & q & X1 & X2 & X3 & X4).
      destruct (proj1 (Hsg (pg_addr g) q)) as (x & Y1 & Y2 & <-); [apply Hgs; eauto|].
      exists x. rewrite Y2. auto.
    - intros (x & X1 & X2 & X3).
      destruct (proj2 (Hgs (w_base x) (w_pos x))) as (g & G1 & G2 & G3); [apply Hsg; eauto|].
      exists g, (w_pos x). rewrite G3. auto. }
  split.
  - intros Hb. unfold lift. rewrite (A (proj2 Hiff Hb)). reflexivity.
  - intros Hb. destruct B as (b & E & _). { intros Hx. apply Hb, Hiff, Hx. }
    eexists. split; [apply lift_eq; exact E|]. cbn. auto.
Qed.

End Cfg.
End Repush.
