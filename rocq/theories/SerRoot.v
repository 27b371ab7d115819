(** * SerRoot: finalize, serialize_value, and sequences of values. *)
From Verif Require Import Base Types Storage Serializer Serialize Spec ArithFacts StorageFacts StorageHist Frame MemFacts TypeFacts SerFacts SerMain SerValue UserPanic.
From Coq Require Import ZifyBool ZifyNat ZifyN Permutation.
Local Open Scope N_scope.

(** ** Induction over values *)
Definition val_ind2 (Q : val -> Prop)
  (Hprim : forall n, Q (VPrim n)) (Hbox : forall v, Q v -> Q (VBox v))
  (Hvec : forall vs, Forall Q vs -> Q (VVec vs)) (Hstr : forall bs, Q (VString bs))
  (Harr : forall vs, Forall Q vs -> Q (VArray vs)) (Hst : forall vs, Forall Q vs -> Q (VStruct vs))
  (Hen : forall n vs, Forall Q vs -> Q (VEnum n vs)) : forall v, Q v :=
  fix go v :=
    let all := fix all vs : Forall Q vs :=
      match vs with [] => Forall_nil Q | v :: vs' => Forall_cons v (go v) (all vs') end in
    match v with
    | VPrim n => Hprim n
    | VBox v => Hbox v (go v)
    | VVec vs => Hvec vs (all vs)
    | VString bs => Hstr bs
    | VArray vs => Harr vs (all vs)
    | VStruct vs => Hst vs (all vs)
    | VEnum n vs => Hen n vs (all vs)
    end.

Section SerRoot.
Context {P : Params}.

Notation cap w := (s_cap (sw_s w)).
Notation pos w := (s_pos (sw_s w)).
Notation ptr w := (s_ptr (sw_s w)).
Notation buf w := (s_buf (sw_s w)).
Notation zpos z := (s_pos (sw_s (z_sw z))).
Notation zbuf z := (s_buf (sw_s (z_sw z))).
Notation zcap z := (s_cap (sw_s (z_sw z))).
Notation zptr z := (s_ptr (sw_s (z_sw z))).

Section Cfg.
Hypothesis C : cfg_ok.
Hypothesis HA : alloc_ok.

Ltac cfg :=
  pose proof (c_SA_pos C); pose proof (c_MVA_pos C); pose proof (c_VA_pos C);
  pose proof (c_VA_MVA C); pose proof (c_MVA_SA C); pose proof (c_MAXC C);
  pose proof (c_MVA_le_MAXC C); pose proof (c_sum C); pose proof (c_umod C);
  pose proof (c_SA_lt_imax C); pose proof (pW_vals (c_machine C)).

Lemma wf_resolve E t : wf_env E -> wf_ty E t -> wf_ty E (resolve E t).
Proof.
  intros HE Hw. destruct t; cbn; auto. destruct (E id) as [d|] eqn:Ei; auto. apply (HE id d Ei).
Qed.

Lemma owned_good E : wf_env E -> forall v t, wf_ty E t -> Forall (fun x => good_layout (fst x)) (owned E t v).
Proof.
  intros HE.
  assert (Hfm : forall (t : ty) vs, wf_ty E t ->
     Forall (fun v => forall t, wf_ty E t -> Forall (fun x => good_layout (fst x)) (owned E t v)) vs ->
     Forall (fun x => good_layout (fst x)) (flat_map (owned E t) vs)).
  { intros t vs Ht Hvs. induction Hvs; cbn; [constructor|]. apply Forall_app. split; auto. }
  assert (Hfs : forall vs (fs : list (N * ty)), (forall o t, In (o, t) fs -> wf_ty E t) ->
     Forall (fun v => forall t, wf_ty E t -> Forall (fun x => good_layout (fst x)) (owned E t v)) vs ->
     Forall (fun x => good_layout (fst x))
       ((fix go (vs : list val) (fs : list (N * ty)) :=
         match vs, fs with
         | v :: vs', (_, t) :: fs' => owned E t v ++ go vs' fs'
         | _, _ => []
         end) vs fs)).
  { intros vs. induction vs as [|v vs IH]; intros fs Hfs Hvs; [constructor|].
    inversion Hvs; subst. destruct fs as [|[o u] fs]; [constructor|].
    apply Forall_app. split; [|apply IH; auto; intros; eapply Hfs; right; eauto].
    match goal with HH : forall t, wf_ty E t -> _ |- _ => apply HH end. eapply Hfs. left. reflexivity. }
  induction v using val_ind2; intros t Ht; pose proof (wf_resolve E t HE Ht) as Hr;
    cbn [owned]; destruct (resolve E t) eqn:Er; try constructor; inversion Hr; subst; auto.
  - destruct (size_of E t0 =? 0); [constructor|]. constructor; auto. cbn. apply (wf_good C E HE); auto.
  - destruct ((size_of E t0 =? 0) || (N.of_nat (length vs) =? 0)); [constructor|]. constructor; auto.
    cbn. apply (wf_good C E HE); auto.
  - destruct (N.of_nat (length bs) =? 0); [constructor|]. constructor; [|constructor]. apply (u8_good C).
  - destruct (nth_error vs0 n) eqn:En; [|constructor]. apply Hfs; auto.
    intros. eapply H6; eauto.
Qed.

Lemma allocations_good E t v : wf_env E -> wf_ty E t ->
  Forall (fun x => good_layout (fst x)) (allocations E t v).
Proof.
  intros HE Ht. unfold allocations. apply Forall_app. split; [|apply owned_good; auto].
  destruct (size_of E t =? 0); [constructor|]. constructor; [|constructor]. apply (wf_good C E HE); auto.
Qed.

Lemma busy_not_good ps : Forall (fun x => good_layout (fst x)) ps -> ~ In busy ps.
Proof.
  intros H Hin. rewrite Forall_forall in H. destruct (H _ Hin) as (Hp & _). apply pow2_pos in Hp. cbn in Hp. lia.
Qed.

(** ** Correcting pointers *)
Definition with_buf (w : sw) (b : mem) : sw :=
  with_store w (mkStore (ptr w) (cap w) (pos w) b).

Lemma with_buf_same w : with_buf w (buf w) = w.
Proof. destruct w as [[? ? ? ?] ? ?]; reflexivity. Qed.

Lemma read_word_is b q x : x < umod -> word_at_is b q x -> read_word b q = Some x.
Proof. intros Hx H. apply read_word_src; auto. Qed.

Lemma shift_right sp base t :
  sp < umod -> base < umod -> base + t < umod -> sp + t < umod ->
  wrapping_add (base + t) (wrapping_sub sp base) = sp + t.
Proof.
  intros. cfg. unfold wrapping_add, wrapping_sub.
  rewrite N.add_mod_idemp_r by lia.
  replace (base + t + (sp + umod - base)) with (sp + t + 1 * umod) by lia.
  rewrite N.mod_add by lia. apply N.mod_small. lia.
Qed.

(** The words at [l] hold [base + tgt q]; afterwards [sp + tgt q]. *)
Definition fixed (l : list N) (tgt : N -> N) (sp : N) (b b' : mem) : Prop :=
  (forall q, In q l -> word_at_is b' q (sp + tgt q)) /\
  (forall i, (forall q, In q l -> i < q \/ q + pW <= i) -> b' i = b i).

Lemma correct_all_eq base sp tgt : forall l w,
  (0 < cap w -> (SA | ptr w)) -> pW <= MVA -> NoDup l ->
  sp < umod -> base < umod ->
  (forall q, In q l -> (pW | q) /\ q + pW <= cap w /\
     base + tgt q < umod /\ sp + tgt q < umod /\ word_at_is (buf w) q (base + tgt q)) ->
  exists b', correct_all (wrapping_sub sp base) l w = Ok tt (with_buf w b') /\
             fixed l tgt sp (buf w) b'.
Proof.
  induction l as [|q l IH]; intros w Hptr Hmv Hnd Hsp Hba Hq; cfg.
  - exists (buf w). cbn. rewrite with_buf_same. split; [reflexivity|]. split; [intros q []|auto].
  - cbn [correct_all]. destruct (Hq q (or_introl eq_refl)) as (Q1 & Q2 & Q3 & Q4 & Q5).
    assert (Hpd : (pW | ptr w)).
    { eapply divide_trans; [|apply Hptr; lia]. eapply divide_trans; [|apply (c_MVA_dvd_SA C)].
      apply pow2_divide; [apply pW_pow2, (c_machine C)|apply (c_MVA C)|exact Hmv]. }
    set (b1 := blit (buf w) q pW (word_src (sp + tgt q))).
    assert (Hstep : correct_ptr (wrapping_sub sp base) q w = Ok tt (with_buf w b1)).
    { unfold correct_ptr. rewrite (proj2 (N.leb_le _ _) Q2).
      rewrite (proj2 (mod_eqb_divide pW (ptr w + q) ltac:(lia))) by (apply N.divide_add_r; assumption).
      cbn [andb]. rewrite (read_word_is _ _ _ Q3 Q5). rewrite shift_right by assumption. reflexivity. }
    erewrite bind_ok by exact Hstep.
    inversion Hnd as [|? ? Hni Hnd']; subst.
    assert (Hap : forall q', In q' l -> q' + pW <= q \/ q + pW <= q').
    { intros q' Hin. destruct (Hq q' (or_intror Hin)) as (D & _).
      apply words_apart; auto; [lia|]. intros ->. contradiction. }
    destruct (IH (with_buf w b1)) as (b' & E & F1 & F2); auto.
    { intros q' Hin. destruct (Hq q' (or_intror Hin)) as (D1 & D2 & D3 & D4 & D5). cbn. ands; auto.
      intros i Hi. unfold b1. rewrite blit_out; [apply D5; exact Hi|].
      destruct (Hap q' Hin); lia. }
    exists b'. rewrite E. split; [reflexivity|]. cbn in F2. split.
    + intros q' [<-|Hin]; [|apply F1; exact Hin].
      intros i Hi. rewrite F2.
      * unfold b1. rewrite blit_in by lia. f_equal. lia.
      * intros q' Hin. destruct (Hap q' Hin); lia.
    + intros i Hi. rewrite F2.
      * unfold b1. apply blit_out. specialize (Hi q (or_introl eq_refl)). lia.
      * intros q' Hin. apply Hi. right; exact Hin.
Qed.

(** A list of groups, those already at the final address being skipped. *)
Lemma correct_past_eq sp tgt : forall gs w,
  (0 < cap w -> (SA | ptr w)) -> pW <= MVA -> NoDup (flat_map pg_pos gs) ->
  sp < umod ->
  (forall g q, In g gs -> In q (pg_pos g) -> (pW | q) /\ q + pW <= cap w /\ pg_addr g < umod /\
     pg_addr g + tgt q < umod /\ sp + tgt q < umod /\ word_at_is (buf w) q (pg_addr g + tgt q)) ->
  exists b', correct_past gs sp w = Ok tt (with_buf w b') /\
             fixed (flat_map pg_pos gs) tgt sp (buf w) b'.
Proof.
  induction gs as [|g gs IH]; intros w Hptr Hmv Hnd Hsp Hq; cfg.
  - exists (buf w). cbn. rewrite with_buf_same. split; [reflexivity|]. split; [intros q []|auto].
  - cbn [correct_past flat_map] in *.
    assert (Hnd1 : NoDup (pg_pos g) /\ NoDup (flat_map pg_pos gs) /\
                   forall q, In q (pg_pos g) -> ~ In q (flat_map pg_pos gs)).
    { clear - Hnd. induction (pg_pos g) as [|x l IHl]; cbn in *.
      - ands; auto. constructor.
      - inversion Hnd as [|? ? Hx Hn]; subst. destruct (IHl Hn) as (A & B & D).
        ands; auto.
        + constructor; [|exact A]. intros Hin. apply Hx. apply in_or_app; auto.
        + intros q [->|Hin]; [intros Hin; apply Hx; apply in_or_app; auto|auto]. }
    destruct Hnd1 as (N1 & N2 & N3).
    assert (Hg1 : exists b1,
       (if negb (pg_addr g =? sp) then correct_ptrs g sp else ret tt) w = Ok tt (with_buf w b1) /\
       fixed (pg_pos g) tgt sp (buf w) b1).
    { destruct (N.eqb_spec (pg_addr g) sp) as [He|Hne]; cbn [negb].
      - exists (buf w). rewrite with_buf_same. split; [reflexivity|]. split; [|auto].
        intros q Hin. rewrite <- He. apply (Hq g q (or_introl eq_refl) Hin).
      - unfold correct_ptrs.
        destruct (pg_pos g) as [|q0 l0] eqn:Eg.
        + exists (buf w). cbn. rewrite with_buf_same. split; [reflexivity|]. split; [intros q []|auto].
        + rewrite <- Eg in *.
          assert (Hga : pg_addr g < umod).
          { apply (Hq g q0); [left; reflexivity|rewrite Eg; left; reflexivity]. }
          apply correct_all_eq; auto.
          intros q Hin. destruct (Hq g q (or_introl eq_refl) Hin) as (D1 & D2 & D3 & D4 & D5 & D6). ands; auto. }
    destruct Hg1 as (b1 & E1 & F1 & F2).
    erewrite bind_ok by exact E1.
    assert (Hal : forall q, In q (pg_pos g ++ flat_map pg_pos gs) -> (pW | q)).
    { intros q Hin. apply in_app_or in Hin. destruct Hin as [Hin|Hin].
      - apply (Hq g q (or_introl eq_refl) Hin).
      - apply in_flat_map in Hin. destruct Hin as (g' & G1 & G2). apply (Hq g' q (or_intror G1) G2). }
    destruct (IH (with_buf w b1)) as (b' & E2 & F3 & F4); auto.
    { intros g' q Hg Hin. destruct (Hq g' q (or_intror Hg) Hin) as (D1 & D2 & D3 & D4 & D5 & D6). cbn.
      ands; auto. intros i Hi. rewrite F2; [apply D6; exact Hi|].
      intros q' Hin'.
      assert (q' <> q).
      { intros ->. apply (N3 q Hin'). apply in_flat_map. exists g'; auto. }
      assert ((pW | q')) by (apply Hal, in_or_app; auto).
      destruct (words_apart q' q ltac:(lia)); auto; lia. }
    exists b'. rewrite E2. split; [reflexivity|]. cbn in F4. split.
    + intros q Hin. apply in_app_or in Hin. destruct Hin as [Hin|Hin]; [|apply F3; exact Hin].
      intros i Hi. rewrite F4; [apply F1; auto|].
      intros q' Hin'.
      assert (q' <> q) by (intros ->; apply (N3 q Hin Hin')).
      assert ((pW | q')) by (apply Hal, in_or_app; auto).
      assert ((pW | q)) by (apply Hal, in_or_app; auto).
      destruct (words_apart q' q ltac:(lia)); auto; lia.
    + intros i Hi. rewrite F4.
      * apply F2. intros q Hin. apply Hi. apply in_or_app; auto.
      * intros q Hin. apply Hi. apply in_or_app; auto.
Qed.

Lemma co_finalize_past z :
  co_finalize z = lift (correct_past (pt_current (z_ptrs z) :: pt_past (z_ptrs z)) (zptr z)) z.
Proof.
  unfold co_finalize. erewrite bind_ok by (apply lift_eq; reflexivity).
  erewrite bind_ok by reflexivity. cbn [z_ptrs z_sw].
  assert (Heq : mkZ (z_sw z) (z_map z) (z_ptrs z) = z) by (destruct z; reflexivity).
  rewrite Heq. cbn [correct_past].
  set (g := pt_current (z_ptrs z)). unfold group_is_empty.
  destruct (negb (pg_addr g =? zptr z)) eqn:En; cbn [andb].
  - destruct (pg_pos g) as [|q l] eqn:Eg; cbn [negb].
    + unfold bind, lift, ret, correct_ptrs. rewrite Eg. cbn.
      destruct (correct_past _ _ _); reflexivity.
    + unfold bind, lift. destruct (correct_ptrs g (zptr z) (z_sw z)) as [u w1|e w1| | |]; auto.
  - unfold bind, lift, ret. cbn. destruct (correct_past _ _ _); reflexivity.
Qed.

(** The target recorded for a pointer position. *)
Definition target (G : ptrlist) (q : N) : N :=
  match find (fun x => fst x =? q) G with Some (_, t) => t | None => 0 end.

Lemma target_in G q t : NoDup (map fst G) -> In (q, t) G -> target G q = t.
Proof.
  unfold target. induction G as [|[x y] G IH]; intros Hnd Hin; [contradiction|].
  cbn in *. inversion Hnd as [|? ? Hx Hnd']; subst.
  destruct Hin as [Heq|Hin].
  - inversion Heq; subst. rewrite N.eqb_refl. reflexivity.
  - destruct (N.eqb_spec x q) as [->|]; [|auto].
    exfalso. apply Hx. apply (in_map fst) in Hin. exact Hin.
Qed.

Lemma combine_fst {A B} (l1 : list A) (l2 : list B) : length l1 = length l2 -> map snd (combine l1 l2) = l2.
Proof. revert l2. induction l1; intros [|y l2] H; cbn in *; try discriminate; auto. f_equal. auto. Qed.

Lemma recs_pos pt : map snd (recs pt) = flat_map pg_pos (pt_past pt) ++ pg_pos (pt_current pt).
Proof.
  unfold recs, group_recs. rewrite map_app. f_equal.
  - induction (pt_past pt) as [|g gs IH]; cbn; [reflexivity|]. rewrite map_app, IH, map_map. f_equal.
    cbn. induction (pg_pos g); cbn; congruence.
  - rewrite map_map. cbn. induction (pg_pos (pt_current pt)); cbn; congruence.
Qed.

Definition final_base (k : kind) (z : zs) : N := match k with Complete => zptr z | _ => 0 end.

Lemma finalize_eq k z G :
  zinv k z G -> (k = Complete -> 0 < zcap z \/ G = []) ->
  exists z', finalize k z = Ok tt z' /\
    zpos z' = zpos z /\ zcap z' = zcap z /\ zptr z' = zptr z /\
    sw_calls (z_sw z') = sw_calls (z_sw z) /\ sw_trace (z_sw z') = sw_trace (z_sw z) /\
    storage_ok (z_sw z') /\
    forall i, zbuf z' i = overlay G (zbuf z) (final_base k z) i.
Proof.
  intros Hz Hne. pose proof Hz as (Hok & Hin & Hnd & Hmv & bases & Hw & Hk). cfg.
  destruct k; cbn [finalize final_base].
  - cbn in Hk. subst G. exists z. ands; auto.
  - cbn in Hk. subst G. exists z. ands; auto.
  - exists z. ands; auto. intros i. unfold overlay.
    destruct (find (covers i) G) as [[q t]|] eqn:Ef; [|reflexivity].
    apply find_some in Ef. destruct Ef as [Hi Hc]. apply covers_true in Hc.
    cbn in Hk. clear - Hw Hk Hi Hc. unfold words_ok in Hw.
    induction Hw as [|[q' t'] base G bases [A B] Hw IH]; [contradiction|].
    inversion Hk; subst. destruct Hi as [Heq|Hi]; [|auto].
    inversion Heq; subst. cbn in B. specialize (B (i - q) ltac:(lia)).
    replace (q + (i - q)) with i in B by lia. exact B.
  - destruct G as [|g0 G0] eqn:EG.
    + (* no pointer was written *)
      assert (Hp : flat_map pg_pos (pt_current (z_ptrs z) :: pt_past (z_ptrs z)) = []).
      { cbn in Hk. destruct bases; cbn in Hk;
          pose proof (recs_pos (z_ptrs z)) as Hr; rewrite Hk in Hr; cbn in Hr; symmetry in Hr;
          apply app_eq_nil in Hr; destruct Hr as [R1 R2]; cbn; rewrite R1, R2; reflexivity. }
      assert (Hnop : forall gs w sp, flat_map pg_pos gs = [] -> correct_past gs sp w = Ok tt w).
      { clear. induction gs as [|g gs IH]; intros w sp Hx; [reflexivity|]. cbn in Hx.
        apply app_eq_nil in Hx. destruct Hx as [X1 X2]. cbn [correct_past].
        erewrite bind_ok; [apply IH; exact X2|].
        destruct (negb _); [|reflexivity]. unfold correct_ptrs. rewrite X1. reflexivity. }
      exists z. rewrite co_finalize_past. ands; auto.
      rewrite (lift_eq _ z tt (z_sw z)) by (apply Hnop; exact Hp). destruct z; reflexivity.
    + rewrite <- EG in *. assert (Hmv' : pW <= MVA) by (destruct Hmv; [congruence|assumption]).
      assert (Hc0 : 0 < zcap z) by (destruct (Hne eq_refl); [assumption|congruence]).
      destruct Hok as (O1 & O2 & O3 & O4 & O5 & O6). destruct (O6 Hc0) as (P1 & P2 & P3).
      set (gs := pt_current (z_ptrs z) :: pt_past (z_ptrs z)).
      assert (Hlen : length bases = length G) by (symmetry; eapply F2_length; exact Hw).
      assert (Hperm : Permutation (flat_map pg_pos gs) (map fst G)).
      { cbn in Hk. pose proof (recs_pos (z_ptrs z)) as Hr. rewrite Hk in Hr.
        rewrite combine_fst in Hr by (rewrite map_length; exact Hlen).
        rewrite Hr. unfold gs. cbn. apply Permutation_app_comm. }
      assert (Hrec : forall g q, In g gs -> In q (pg_pos g) -> In (pg_addr g, q) (recs (z_ptrs z))).
      { intros g q Hg Hq. unfold recs, group_recs. apply in_or_app. destruct Hg as [<-|Hg].
        - right. apply in_map. exact Hq.
        - left. apply in_flat_map. exists g. split; [exact Hg|]. apply in_map. exact Hq. }
      assert (Hword : forall base q, In (base, q) (recs (z_ptrs z)) -> exists t, In (q, t) G /\
                base + t < umod /\ word_at_is (zbuf z) q (base + t)).
      { cbn in Hk. rewrite Hk. clear - Hw. induction Hw as [|[q' t'] base' G bases [A B] Hw IH]; cbn; [tauto|].
        intros base q [Heq|Hi].
        - inversion Heq; subst. exists t'. cbn in *. auto.
        - destruct (IH base q Hi) as (t & T1 & T2 & T3). exists t; auto. }
      destruct (correct_past_eq (zptr z) (target G) gs (z_sw z)) as (b' & E & F1 & F2); auto; try lia.
      * eapply Permutation_NoDup; [apply Permutation_sym; exact Hperm|exact Hnd].
      * intros g q Hg Hq. destruct (Hword _ _ (Hrec g q Hg Hq)) as (t & T1 & T2 & T3).
        destruct (Hin q t T1) as (I1 & I2 & I3). rewrite (target_in G q t Hnd T1). ands; auto; lia.
      * exists (mkZ (with_buf (z_sw z) b') (z_map z) (z_ptrs z)).
        rewrite co_finalize_past. fold gs. rewrite (lift_eq _ z tt _ E). cbn. ands; auto.
        -- unfold storage_ok; cbn; ands; auto.
        -- intros i. unfold overlay. destruct (find (covers i) G) as [[q t]|] eqn:Ef.
           ++ apply find_some in Ef. destruct Ef as [Hi Hcv]. apply covers_true in Hcv.
              assert (Hqin : In q (flat_map pg_pos gs)).
              { eapply Permutation_in; [apply Permutation_sym; exact Hperm|]. apply (in_map fst) in Hi. exact Hi. }
              specialize (F1 q Hqin (i - q) ltac:(lia)). rewrite (target_in G q t Hnd Hi) in F1.
              replace (q + (i - q)) with i in F1 by lia. exact F1.
           ++ apply F2. intros q Hq.
              assert (Hq' : In q (map fst G)) by (eapply Permutation_in; [exact Hperm|exact Hq]).
              apply in_map_iff in Hq'. destruct Hq' as [[q' t] [Heq Hi]]. cbn in Heq. subst q'.
              pose proof (find_none _ _ Ef _ Hi) as Hf. cbn in Hf.
              unfold covers in Hf; cbn in Hf. lia.
Qed.


(** ** Whole values *)
Definition rdone (k : kind) (z : zs) (G : ptrlist) (ps : list (layout * N))
    {A} (x0 : A) (R : N -> mem -> Prop) (o : outcome zs A) : Prop :=
  match o with
  | Ok x z' => exists G',
      x = x0 /\ zinv k z' (G ++ G') /\
      zpos z' = end_pos (zpos z) ps /\ zpos z <= zpos z' /\ zpos z' <= MAXC /\
      (forall q t, In (q, t) G' -> zpos z <= q /\ q + pW <= zpos z') /\
      (forall i, i < zpos z -> zbuf z' i = zbuf z i) /\
      quietly (fun _ => False) ps z z' G' /\ extends (z_sw z) (z_sw z') /\
      (forall B M, (MVA | B) -> B + zpos z' < umod ->
         fits_mem z z' (G ++ G') (fun _ => False) B M -> R B M)
  | Panic e z' =>
      stopped e (full ps z z') /\ storage_ok (z_sw z') /\
      extends (z_sw z) (z_sw z') /\ zpos z <= zpos z' /\
      (forall i, i < zpos z -> zbuf z' i = zbuf z i) /\
      (exists G', zinv k z' (G ++ G') /\ forall q t, In (q, t) G' -> zpos z <= q)
  | Abort => refused ps z
  | UB | OutOfFuel => False
  end.

Lemma rdone_seq k z G ps1 ps2 {A B} (x1 : A) (x2 : B) (R1 R2 : N -> mem -> Prop)
    (f1 : M zs A) (f2 : A -> M zs B) :
  zinv k z G ->
  rdone k z G ps1 x1 R1 (f1 z) ->
  (forall z1 G1, zinv k z1 (G ++ G1) -> zpos z1 = end_pos (zpos z) ps1 ->
     rdone k z1 (G ++ G1) ps2 x2 R2 (f2 x1 z1)) ->
  rdone k z G (ps1 ++ ps2) x2 (fun B M => R1 B M /\ R2 B M) (bind f1 f2 z).
Proof.
  intros Hz H1' H2'. cfg. unfold bind.
  destruct (f1 z) as [x z1|e z1| | |] eqn:Ef; auto.
  3:{ cbn in *. apply refused_first; assumption. }
  2:{ cbn in *. destruct H1' as (B2 & B3 & B4 & B5 & B6 & B7). ands; auto.
      eapply stopped_imp; [exact B2|]. apply (full_first C). }
  cbn in H1'. destruct H1' as (G1 & -> & I1 & I3 & I4 & I5 & I6 & I7 & I8 & I9 & I10).
  specialize (H2' z1 G1 I1 I3).
  destruct (f2 x1 z1) as [y z2|e z2| | |]; auto.
  3:{ cbn in *. eapply refused_later; [eapply quietly_quiet; eassumption|eassumption]. }
  - cbn in H2'. destruct H2' as (G2 & -> & J1 & J3 & J4 & J5 & J6 & J7 & J8 & J9 & J10).
    cbn. exists (G1 ++ G2). rewrite app_assoc. ands; auto; try lia.
    + rewrite end_pos_app, <- I3. exact J3.
    + intros q t Hin. apply in_app_or in Hin. destruct Hin as [Hin|Hin].
      * destruct (I6 q t Hin). lia.
      * destruct (J6 q t Hin). lia.
    + intros i Hi. rewrite J7 by lia. apply I7; lia.
    + eapply (quietly_app (fun _ => False) (fun _ => False)); try eassumption; auto.
      * apply ok_pos_le. apply (zinv_ok _ _ _ I1).
      * intros i [].
    + eapply extends_trans; eassumption.
    + intros B' M HB Hle Hfit. split.
      * apply I10; [exact HB|lia|]. intros i [[]|Hi].
        rewrite Hfit by (right; lia).
        rewrite overlay_app_r.
        -- apply overlay_buf. apply J7; lia.
        -- intros q t Hin. destruct (covers i (q, t)) eqn:Ec; [|reflexivity].
           apply covers_true in Ec. exfalso. destruct (J6 q t Hin). lia.
      * apply J10; [exact HB|lia|]. intros i [[]|Hi]. apply Hfit. right; lia.
  - cbn in H2' |- *. destruct H2' as (B2 & B3 & B4 & B5 & B6 & G' & B7 & B8). ands; auto; try lia.
    + eapply stopped_imp; [exact B2|]. apply full_later; [eapply quietly_quiet; eassumption|assumption].
    + eapply extends_trans; eassumption.
    + intros i Hi. rewrite B6 by lia. apply I7; lia.
    + exists (G1 ++ G'). rewrite app_assoc. split; [exact B7|].
      intros q t Hin. apply in_app_or in Hin. destruct Hin as [Hin|Hin].
      * destruct (I6 q t Hin). lia.
      * pose proof (B8 q t Hin). lia.
Qed.

Lemma rdone_ret k z G {A} (x : A) : zinv k z G -> rdone k z G [] x (fun _ _ => True) (ret x z).
Proof.
  intros Hz. cfg. pose proof (zinv_ok _ _ _ Hz) as Hok. pose proof (ok_pos_le _ Hok). pose proof (ok_cap_le _ Hok).
  exists []. rewrite app_nil_r. ands; auto; try (cbn; lia).
  - apply quietly_same; auto; try (intros i []); try (intros q t []; fail).
  - apply extends_refl.
Qed.

Lemma rdone_imp k z G ps {A} (x : A) (R R' : N -> mem -> Prop) o :
  rdone k z G ps x R o -> (forall B M, (MVA | B) -> R B M -> R' B M) -> rdone k z G ps x R' o.
Proof.
  intros H HR. destruct o as [a z'|e z'| | |]; auto; cbn in *.
  destruct H as (G' & H1 & H2 & H3 & H4 & H5 & H6 & H7 & H8 & H9 & H10).
  exists G'. ands; auto.
Qed.

Lemma from_storage_inv k w : storage_ok w -> zinv k (from_storage w) [].
Proof.
  intros Hok. unfold zinv, from_storage; cbn [z_sw z_ptrs]. ands; auto.
  - intros q t [].
  - constructor.
  - exists []. split; [constructor|]. destruct k; cbn; auto.
Qed.

Section Values.
Variable E : tenv.
Hypothesis HE : wf_env E.
Variable k : kind.
Variable m : mem.
Variables Hin Hout : header.
Hypothesis T : transfers k Hin Hout.

(** What holds of a root value at the position returned. *)
Definition root_ok (t : ty) (v : val) (p : N) (B : N) (M : mem) : Prop :=
  (tracking k = true -> repr E Hout M t (B + p) v) /\
      (forall M', (forall i, M' i = M (B + i)) -> forall f, (vdepth v < f)%nat -> decode_root E M' f t p = Some v).

Definition input_ok (fuel : nat) (t : ty) (a : N) (v : val) : Prop :=
  repr E Hin m t a v /\ wf_ty E t /\ (vdepth v < fuel)%nat /\ a + size_of E t <= umod.

Lemma root_done fuel t a v z G :
  input_ok fuel t a v -> zinv k z G ->
  rdone k z G (allocations E t v) (root_pos E (zpos z) t)
    (root_ok t v (root_pos E (zpos z) t))
    (serialize_value k E m fuel t a z).
Proof.
  intros (Hr & Hw & Hf & Ha) Hz. cfg.
  pose proof (wf_good C E HE t Hw) as Hg.
  pose proof (zinv_ok _ _ _ Hz) as Hok.
  pose proof (ok_pos_le _ Hok) as Hple. pose proof (ok_cap_le _ Hok) as Hcle.
  set (l := layout_of E t) in *.
  unfold root_pos. change (size_of E t) with (l_size l) in *. fold l.
  (* the work after the root has been pushed *)
  assert (Htail : forall p z1, zinv k z1 G -> zpos z <= zpos z1 -> zpos z1 <= MAXC ->
     (forall i, i < zpos z -> zbuf z1 i = zbuf z i) ->
     (forall i, seg p (l_size l) i -> zpos z <= i /\ i < zpos z1 /\ zbuf z1 i = m (a + (i - p))) ->
     (tracking k = true -> z_map z1 = mkMap a p) ->
     (l_align l | p) ->
     forall ps0, zpos z1 = end_pos (zpos z) ps0 -> quietly (fun _ => False) ps0 z z1 [] -> extends (z_sw z) (z_sw z1) ->
     (forall i, seg p (l_size l) i -> in_blocks (zpos z) ps0 i) ->
     (forall M f, (vdepth v < f)%nat ->
        decode E M f t p (zpos z1) = Some (v, end_pos (zpos z1) (owned E t v)) ->
        decode_root E M f t p = Some v) ->
     rdone k z G (ps0 ++ owned E t v) p (root_ok t v p)
       ((ser_data k E m fuel t a ;;; ret p) z1)).
  { intros p z1 Hz1 Hpge Hmax Hkeep Hcp Hmap Hal ps0 Hps Hq Hx Hblk Hdec.
    assert (Hrd : ready k z1 G (seg p (l_size l)) m p a).
    { unfold ready. ands; auto.
      - intros i Hi. destruct (Hcp i Hi) as (D1 & D2 & D3). unfold seg in Hi. ands; auto; lia.
      - intros q t' Hq' i Hi1 Hi2 Hs. destruct (Hcp i Hs) as (D1 & _).
        destruct Hz as (_ & Hzq & _). destruct (Hzq q t' Hq'). lia.
      - intros Hk. rewrite (Hmap Hk). cbn. lia. }
    pose proof (value_done C HA E HE k m Hin Hout T t a v Hr Hw fuel z1 G p Hf Hrd Hal Ha) as HD.
    unfold bind. destruct (ser_data k E m fuel t a z1) as [u z2|e z2| | |]; auto.
    3:{ cbn in *. eapply refused_later; [eapply quietly_quiet; eassumption|eassumption]. }
    - cbn in HD. destruct HD as (G' & J1 & J2 & J3 & J4 & J5 & J6 & J7 & J8 & J9 & J10).
      exists G'. ands; auto; try lia.
      + rewrite end_pos_app, <- Hps. exact J3.
      + intros q t' Hq'. destruct (J6 q t' Hq') as [Hi|Hi]; [|lia].
        destruct (Hcp q (Hi q ltac:(lia) ltac:(lia))) as (D1 & _).
        destruct (Hcp (q + pW - 1) (Hi (q + pW - 1) ltac:(lia) ltac:(lia))) as (_ & D2 & _). lia.
      + intros i Hi. rewrite J7; [apply Hkeep; exact Hi|lia|].
        intros Hs. destruct (Hcp i Hs). lia.
      + change G' with ([] ++ G').
        eapply (quietly_app (fun _ => False) (seg p (l_size l))); try eassumption; auto.
        * apply ok_pos_le. apply (zinv_ok _ _ _ Hz1).
        * intros i [].
      + eapply extends_trans; eassumption.
      + intros B M HB Hle Hfit.
        assert (HV : VS E k m Hout t p a (zpos z1) v B M).
        { apply J10; auto. intros i Hi. apply Hfit. right.
          destruct Hi as [Hi|Hi]; [destruct (Hcp i Hi); lia|lia]. }
        destruct HV as (V1 & V2 & V3). split; [exact V1|]. intros M' HM f Hf'. apply Hdec; auto.
    - cbn in HD |- *. destruct HD as (B2 & B3 & B4 & B5 & B6 & G' & B7 & B8). ands; auto; try lia.
      + eapply stopped_imp; [exact B2|]. apply full_later; [eapply quietly_quiet; eassumption|assumption].
      + eapply extends_trans; eassumption.
      + intros i Hi. rewrite B6; [apply Hkeep; exact Hi|lia|].
        intros Hs. destruct (Hcp i Hs). lia.
      + exists G'. split; [exact B7|]. intros q t' Hq'. destruct (B8 q t' Hq') as [Hi|Hi]; [|lia].
        destruct (Hcp q (Hi q ltac:(lia) ltac:(lia))) as (D1 & _). lia. }
  unfold serialize_value, serialize_value_with, push_raw, push_raw_slice, allocations.
  change (size_of E t) with (l_size l). fold l.
  cbn [sl_lay sl_len sl_data slice_at sl_addr].
  destruct (N.eqb_spec (l_size l) 0) as [Hz0|Hnz].
  - (* zero-sized root *)
    assert (Hgo : forall z1, z_sw z1 = z_sw z -> z_ptrs z1 = z_ptrs z ->
       (tracking k = true -> z_map z1 = mkMap a 0) ->
       rdone k z G ([] ++ owned E t v) 0 (root_ok t v 0) ((ser_data k E m fuel t a ;;; ret 0) z1)).
    { intros z1 Hs Hp Hm. apply Htail; auto.
      - destruct z1 as [s1 m1 p1]. cbn in *. subst. apply (zinv_map k z G m1 Hz).
      - rewrite Hs; lia.
      - rewrite Hs; lia.
      - rewrite Hs; auto.
      - intros i; unfold seg; lia.
      - apply N.divide_0_r.
      - rewrite Hs; reflexivity.
      - apply quietly_same; rewrite ?Hs; auto; try (intros i []); try (intros q0 t0 []; fail).
      - rewrite Hs; apply extends_refl.
      - intros i; unfold seg; lia.
      - intros M f Hf' _. unfold decode_root.
        rewrite (proj2 (zst_value C E HE _ _ _ _ _ Hr Hw Hz0)) by exact Hf'. reflexivity. }
    assert (Hps : lift (push_slice l 1 (mem_from m a)) z = Ok 0 z).
    { rewrite (lift_eq _ z 0 (z_sw z)); [destruct z; reflexivity|]. apply push_slice_zst; exact Hz0. }
    destruct k; erewrite bind_ok by exact Hps.
    + apply Hgo; auto. discriminate.
    + erewrite bind_ok by reflexivity. apply Hgo; auto.
    + erewrite bind_ok by reflexivity. apply Hgo; auto.
    + erewrite bind_ok by reflexivity. apply Hgo; auto.
  - pose proof (push_slice_spec C HA (z_sw z) l 1 (mem_from m a) Hok Hg ltac:(lia)) as HP.
    rewrite N.mul_1_r in HP. specialize (HP ltac:(apply Hg) ltac:(lia)).
    pose proof (push_frame C HA (z_sw z) l 1 (mem_from m a) Hok Hg ltac:(lia) ltac:(lia)
                  ltac:(rewrite N.mul_1_r; apply Hg)) as HF.
    set (st := push_start (zpos z) l) in *.
    assert (Hpush : forall (f : N -> M zs N),
      (forall z1, storage_ok (z_sw z1) -> zpos z1 = push_end (zpos z) l 1 -> push_end (zpos z) l 1 <= MAXC ->
         (forall i, i < zpos z -> zbuf z1 i = zbuf z i) ->
         (forall i, i < l_size l -> zbuf z1 (st + i) = m (a + i)) ->
         extends (z_sw z) (z_sw z1) -> quietly (fun _ => False) [(l, 1)] z z1 [] -> z_ptrs z1 = z_ptrs z ->
         rdone k z G ([(l, 1)] ++ owned E t v) st (root_ok t v st) (f st z1)) ->
      rdone k z G ([(l, 1)] ++ owned E t v) st (root_ok t v st) (bind (lift (push_slice l 1 (mem_from m a))) f z)).
    { intros f Hcont. unfold bind, lift. unfold z_sw at 1.
      destruct (push_slice l 1 (mem_from m a) (let (z_sw, _, _) := z in z_sw)) as [p w1|e w1| | |] eqn:Ep;
        change (let (z_sw, _, _) := z in z_sw) with (z_sw z) in Ep; rewrite Ep in HP, HF; auto.
      3:{ apply (refused_first [(l, 1)]). split; [exact HP|]. intros _. cbn [fpushes]. rewrite HF. reflexivity. }
      - destruct HP as (-> & P2 & P3 & P4 & P5 & P6 & P7 & _). apply Hcont; auto.
        eapply (push_quietly C HA); try eassumption; try lia. rewrite N.mul_1_r. apply Hg.
      - destruct HP as (-> & -> & P3 & P4). cbn. ands; auto.
        + right. split; [reflexivity|]. apply (full_first C [(l, 1)]). split.
          * cbn [end_pos]. lia.
          * intros _. cbn [fpushes]. rewrite (proj2 HF). reflexivity.
        + apply extends_same; reflexivity.
        + apply (push_start_ge C). apply Hg.
        + exists []. rewrite app_nil_r. split; [|intros q t' []].
          apply (zinv_push k z G (at_pos (z_sw z) st) Hz P3); [|reflexivity].
          apply (push_start_ge C). apply Hg. }
    assert (Hgo : forall z1, storage_ok (z_sw z1) -> zpos z1 = push_end (zpos z) l 1 -> push_end (zpos z) l 1 <= MAXC ->
         (forall i, i < zpos z -> zbuf z1 i = zbuf z i) ->
         (forall i, i < l_size l -> zbuf z1 (st + i) = m (a + i)) ->
         extends (z_sw z) (z_sw z1) -> quietly (fun _ => False) [(l, 1)] z z1 [] -> z_ptrs z1 = z_ptrs z ->
         (tracking k = true -> z_map z1 = mkMap a st) ->
         rdone k z G ([(l, 1)] ++ owned E t v) st (root_ok t v st) ((ser_data k E m fuel t a ;;; ret st) z1)).
    { intros z1 D1 D2 D3 D4 D5 D6 D7 D8 D9.
      pose proof (push_end_ge C (zpos z) l 1) as Hpe. fold st in Hpe. rewrite N.mul_1_r in Hpe.
      pose proof (push_start_ge C (zpos z) l (proj1 Hg)) as Hst. fold st in Hst.
      apply Htail; auto; try lia.
      - pose proof (zinv_push k z G (z_sw z1) Hz D1 ltac:(lia) D4) as Hzi.
        destruct z1 as [s1 m1 p1]. cbn in *. subst p1.
        apply (zinv_map k (mkZ s1 (z_map z) (z_ptrs z)) G m1 Hzi).
      - intros i Hi. unfold seg in Hi. ands; try lia.
        replace i with (st + (i - st)) at 1 by lia. apply D5. lia.
      - apply (push_start_align C). apply Hg.
      - intros i Hi. left. fold st. rewrite N.mul_1_r. exact Hi.
      - intros M f Hf' Hd. unfold decode_root.
        assert (Hc : round_up (st + size_of E t) VA = zpos z1).
        { rewrite D2. unfold push_end. fold st. rewrite N.mul_1_r. reflexivity. }
        rewrite Hc, Hd. reflexivity. }
    destruct k; apply Hpush; intros z1 D1 D2 D3 D4 D5 D6 D7 D8.
    + apply Hgo; auto. discriminate.
    + erewrite bind_ok by reflexivity. apply Hgo; auto.
    + erewrite bind_ok by reflexivity. apply Hgo; auto.
    + erewrite bind_ok by reflexivity. apply Hgo; auto.
Qed.

(** ** Several values *)
Definition item := (ty * N * val)%type.
Definition it_in (x : item) : ty * N := fst x.
Definition it_tv (x : item) : ty * val := (fst (fst x), snd x).

Lemma values_done fuel : forall (xs : list item) z G,
  Forall (fun '(t, a, v) => input_ok fuel t a v) xs -> zinv k z G ->
  rdone k z G (all_allocations E (map it_tv xs)) (root_positions E (zpos z) (map it_tv xs))
    (fun B M => Forall2 (fun '(t, a, v) p => root_ok t v p B M) xs (root_positions E (zpos z) (map it_tv xs)))
    (serialize_values k E m fuel (map it_in xs) z).
Proof.
  induction xs as [|[[t a] v] xs IH]; intros z G Hall Hz.
  - cbn [map serialize_values all_allocations flat_map root_positions].
    eapply rdone_imp; [apply rdone_ret; exact Hz|]. constructor.
  - inversion Hall as [|? ? Hx Hxs]; subst.
    cbn [map it_in it_tv fst snd serialize_values all_allocations flat_map root_positions].
    fold (all_allocations E (map it_tv xs)).
    eapply rdone_imp.
    + eapply rdone_seq; [exact Hz|apply root_done; eauto|].
      intros z1 G1 Hz1 Hp1.
      pose proof (IH z1 (G ++ G1) Hxs Hz1) as HI. rewrite Hp1 in HI.
      rewrite <- (app_nil_r (all_allocations E (map it_tv xs))).
      eapply rdone_seq; [exact Hz1|exact HI|].
      intros z2 G2 Hz2 _. apply rdone_ret; exact Hz2.
    + cbv beta. intros B M HB (R1 & R2 & _). constructor; auto.
Qed.

Lemma F2_impl {A B} (R R' : A -> B -> Prop) l l' :
  (forall x y, R x y -> R' x y) -> Forall2 R l l' -> Forall2 R' l l'.
Proof. intros H. induction 1; constructor; auto. Qed.

(** Where root values lie. *)
Lemma root_positions_in : forall (l : list (ty * val)) p,
  Forall (fun tv => wf_ty E (fst tv)) l ->
  Forall2 (fun tv q => (align_of E (fst tv) | q) /\
     (0 < size_of E (fst tv) -> p <= q /\ q + size_of E (fst tv) <= end_pos p (all_allocations E l)))
    l (root_positions E p l).
Proof.
  induction l as [|[t v] l IH]; intros p Hw; cbn [root_positions]; constructor; inversion Hw as [|? ? Ht Hl]; subst.
  - cbn [fst] in *. pose proof (wf_good C E HE t Ht) as Hg.
    unfold root_pos. destruct (N.eqb_spec (size_of E t) 0) as [Hz|Hnz].
    + split; [apply N.divide_0_r|lia].
    + split; [apply (push_start_align C); apply Hg|]. intros _.
      split; [apply (push_start_ge C), Hg|].
      unfold all_allocations. cbn [flat_map fst snd]. rewrite end_pos_app. unfold allocations.
      rewrite (proj2 (N.eqb_neq _ _) Hnz). cbn [app end_pos].
      pose proof (push_end_ge C p (layout_of E t) 1) as Hpe. rewrite N.mul_1_r in Hpe.
      pose proof (end_pos_ge C (push_end p (layout_of E t) 1) (owned E t v)).
      pose proof (end_pos_ge C (end_pos (push_end p (layout_of E t) 1) (owned E t v))
        (flat_map (fun tv : ty * val => allocations E (fst tv) (snd tv)) l)).
      change (size_of E t) with (l_size (layout_of E t)).
      set (e1 := end_pos (push_end p (layout_of E t) 1) (owned E t v)) in *. 
      eapply N.le_trans; [exact Hpe|]. eapply N.le_trans; eassumption.
  - specialize (IH (end_pos p (allocations E t v)) Hl).
    unfold all_allocations. cbn [flat_map fst snd]. rewrite end_pos_app.
    fold (all_allocations E l).
    eapply F2_impl; [|exact IH]. cbv beta. intros [t' v'] q [A B]. cbn [fst] in *.
    split; [exact A|]. intros Hs. destruct (B Hs). split; [|assumption].
    pose proof (end_pos_ge C p (allocations E t v)). lia.
Qed.

(** The base address with which the output is read. *)
Definition out_base (w : sw) : N := match k with Complete => ptr w | _ => 0 end.

Definition root_final (w : sw) (t : ty) (v : val) (p : N) : Prop :=
  (tracking k = true -> repr E Hout (out_mem (out_base w) w) t (out_base w + p) v) /\
  (forall f, (vdepth v < f)%nat -> decode_root E (out_mem 0 w) f t p = Some v).

Definition final_ok (w : sw) (xs : list item) (rs : list N) (w' : sw) : Prop :=
  rs = root_positions E (pos w) (map it_tv xs) /\
  pos w' = end_pos (pos w) (all_allocations E (map it_tv xs)) /\
  pos w' <= MAXC /\ storage_ok w' /\ extends w w' /\
  (forall i, i < pos w -> buf w' i = buf w i) /\
  fpushes (all_allocations E (map it_tv xs)) (frame_of w) = FOk (frame_of w') /\
  Forall2 (fun '(t, a, v) p => root_final w' t v p) xs rs.

Definition final_fail (w : sw) (xs : list item) (e : panic) (w' : sw) : Prop :=
  e = PCapacity /\ MAXC < end_pos (pos w) (all_allocations E (map it_tv xs)) /\
  fpushes (all_allocations E (map it_tv xs)) (frame_of w) = FFull (frame_of w') /\
  storage_ok w' /\ extends w w' /\ pos w <= pos w' /\
  (forall i, i < pos w -> buf w' i = buf w i).

Theorem serialize_all_spec fuel xs w :
  storage_ok w ->
  Forall (fun '(t, a, v) => input_ok fuel t a v) xs ->
  match serialize_all k E m fuel (map it_in xs) (from_storage w) with
  | Ok rs z' => final_ok w xs rs (z_sw z')
  | Panic e z' => final_fail w xs e (z_sw z')
  | Abort => alloc_failed /\ fpushes (all_allocations E (map it_tv xs)) (frame_of w) = FAbort
  | UB | OutOfFuel => False
  end.
Proof.
  intros Hok Hall. cfg.
  assert (Hcalm : ~ In busy (all_allocations E (map it_tv xs))).
  { apply busy_not_good. unfold all_allocations. apply Forall_flat_map. apply Forall_map.
    eapply Forall_impl; [|exact Hall]. intros [[t a] v] Hx. apply allocations_good; [exact HE|apply Hx]. } pose proof (from_storage_inv k w Hok) as Hz.
  pose proof (values_done fuel xs (from_storage w) [] Hall Hz) as HV.
  unfold serialize_all, bind.
  pose proof (nu_serialize_values k E m fuel (map it_in xs) (from_storage w)) as HNU.
  destruct (serialize_values k E m fuel (map it_in xs) (from_storage w)) as [rs z1|e z1| | |]; auto.
  3:{ cbn [rdone] in HV. destruct HV as [V1 V2]. split; [exact V1|]. apply V2. exact Hcalm. }
  2:{ cbn [rdone] in HV. unfold final_fail, stopped, full in *.
      destruct HV as ([->|(HV0 & HV2 & HV3)] & HV1); [destruct HNU|]. specialize (HV3 Hcalm). tauto. }
  clear HNU.
  cbn [rdone app] in HV. destruct HV as (G & -> & V1 & V2 & V3 & V4 & V5 & V6 & V7 & V8 & V9).
  cbn [from_storage z_sw] in *.
  pose proof (zinv_ok _ _ _ V1) as Hok1.
  assert (Hne : k = Complete -> 0 < zcap z1 \/ G = []).
  { intros _. destruct G as [|[q t] G]; [auto|left].
    destruct (V5 q t (or_introl eq_refl)). pose proof (ok_pos_le _ Hok1). lia. }
  destruct (finalize_eq k z1 G V1 Hne) as (z' & -> & Z1 & Z2 & Z3 & Z4 & Z5 & Z6 & Z7).
  cbn [ret]. unfold final_ok.
  assert (Hexz : extends (z_sw z1) (z_sw z')) by (apply extends_same; congruence).
  ands.
  - reflexivity.
  - congruence.
  - lia.
  - exact Z6.
  - eapply extends_trans; eassumption.
  - intros i Hi. rewrite Z7. rewrite overlay_none; [apply V6; exact Hi|].
    intros q t Hq. destruct (V5 q t Hq). unfold covers; cbn. lia.
  - destruct V7 as [V7 _]. specialize (V7 Hcalm). cbn [from_storage z_sw] in V7. rewrite V7. unfold frame_of.
    rewrite Z1, Z2, Z3, Z4, Z5. reflexivity.
  - set (l := map it_tv xs) in *.
    assert (Hbase : out_base (z_sw z') = final_base k z1).
    { unfold out_base, final_base. destruct k; auto. }
    assert (Hxs : Forall2 (fun '(t, a, v) p => input_ok fuel t a v) xs (root_positions E (pos w) l)).
    { subst l. clear - Hall. generalize (pos w). induction Hall as [|[[t a] v] xs Hx _ IH]; intros p; cbn; constructor; auto. }
    assert (Hsz : Forall2 (fun '(t, a, v) p => 0 < size_of E t -> p + size_of E t <= zpos z1) xs (root_positions E (pos w) l)).
    { rewrite V2. subst l. clear - Hall C HE. 
      assert (Hw : Forall (fun tv => wf_ty E (fst tv)) (map it_tv xs)).
      { induction Hall as [|[[t a] v] xs Hx _ IH]; cbn; constructor; auto. apply Hx. }
      pose proof (root_positions_in (map it_tv xs) (pos w) Hw) as HI.
      revert HI. generalize (end_pos (pos w) (all_allocations E (map it_tv xs))).
      generalize (root_positions E (pos w) (map it_tv xs)). generalize (pos w). clear.
      induction xs as [|[[t a] v] xs IH]; intros p0 ps e HI; cbn in HI; inversion HI; subst; constructor; auto.
      - intros Hs. apply H1. exact Hs.
      - eapply IH. eassumption. }
    destruct (N.eq_dec (zpos z1) 0) as [Hp0|Hp0].
    + (* nothing was written: only zero-sized values *)
      clear - Hxs Hsz Hp0 C HE Hin T. induction Hxs as [|[[t a] v] p xs ps Hx Hxs IH]; constructor; inversion Hsz; subst; auto.
      destruct Hx as (Hr & Hw & _ & _).
      assert (Hz0 : size_of E t = 0) by lia.
      split.
      * intros _. eapply zst_repr; eauto.
      * intros f Hf. unfold decode_root. rewrite (proj2 (zst_value C E HE _ _ _ _ _ Hr Hw Hz0)) by exact Hf. reflexivity.
    + assert (Hc0 : 0 < zcap z1) by (pose proof (ok_pos_le _ Hok1); lia).
      destruct Hok1 as (O1 & O2 & O3 & O4 & O5 & O6). destruct (O6 Hc0) as (P1 & P2 & P3).
      assert (Hfit : forall B, (MVA | B) -> B + zpos z1 < umod -> B = final_base k z1 \/ (k <> Complete /\ B = 0) ->
         Forall2 (fun '(t, a, v) p => root_ok t v p B (out_mem B (z_sw z'))) xs (root_positions E (pos w) l)).
      { intros B HB Hle HBe. apply V9; auto. intros i [[]|Hi]. unfold out_mem.
        rewrite Z1. rewrite (proj2 (N.leb_le B (B + i))) by lia. rewrite (proj2 (N.ltb_lt (B + i) _)) by lia.
        cbn [andb]. replace (B + i - B) with i by lia. rewrite Z7.
        destruct HBe as [->|[Hk ->]]; [reflexivity|]. f_equal. unfold final_base. destruct k; congruence. }
      assert (HMp : (MVA | zptr z1)) by (eapply N.divide_trans; [apply (c_MVA_dvd_SA C)|exact P2]).
      assert (F1 : Forall2 (fun '(t, a, v) p => root_ok t v p (final_base k z1) (out_mem (final_base k z1) (z_sw z')))
                     xs (root_positions E (pos w) l)).
      { apply Hfit; auto; unfold final_base; destruct k; try apply N.divide_0_r; auto; lia. }
      assert (HM : forall i, out_mem 0 (z_sw z') i = out_mem (final_base k z1) (z_sw z') (final_base k z1 + i)).
      { intros i. unfold out_mem. set (b := final_base k z1).
        replace (b + i - b) with (i - 0) by lia.
        destruct (N.leb_spec 0 i), (N.leb_spec b (b + i)), (N.ltb_spec i (0 + s_pos (sw_s (z_sw z')))), (N.ltb_spec (b + i) (b + s_pos (sw_s (z_sw z')))); try lia; reflexivity. }
      clear - F1 HM Hbase.
      revert F1. generalize (root_positions E (pos w) l) as ps.
      clear l. induction xs as [|[[t a] v] xs IH]; intros ps F1.
      * inversion F1; constructor.
      * inversion F1 as [|? p ? ps' A F1']; subst. destruct A as [A1 A2]. constructor.
        -- split.
           ++ intros Hk. rewrite Hbase. apply A1. exact Hk.
           ++ apply A2. exact HM.
        -- apply IH; auto.
Qed.

End Values.
End Cfg.
End SerRoot.
