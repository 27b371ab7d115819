(** * GenSerRoot: finalize, serialize_value and sequences of values, over any storage
    (as SerRoot.v). *)
From Verif Require Import Base Types Storage Serializer Serialize Spec ArithFacts StorageFacts MemFacts TypeFacts
  SerFacts SerMain SerValue SerRoot StorageHist GenStorage GenSpec GenFacts GenSerializer GenSerSpec
  GenSerFacts GenSerMain GenSerValue.
From Coq Require Import ZifyBool ZifyNat ZifyN Permutation.
Local Open Scope N_scope.

Section GenSerRoot.
Context {P : Params}.
Context {St : Type}.
Variable R : ra_impl St.
Hypothesis C : cfg_ok.
Variable inv : St -> Prop.
Variable contents : St -> mem.
Variable empties : bool.
Hypothesis K : keeps_contract (r_st R) inv contents empties.
Hypothesis KP : reserve_keeps_pos (r_st R) inv.
Context {UP : Prop}.

Ltac cfg :=
  pose proof (c_SA_pos C); pose proof (c_MVA_pos C); pose proof (c_VA_pos C);
  pose proof (c_VA_MVA C); pose proof (c_MVA_SA C); pose proof (c_MAXC C);
  pose proof (c_MVA_le_MAXC C); pose proof (c_sum C); pose proof (c_umod C);
  pose proof (c_SA_lt_imax C); pose proof (pW_vals (c_machine C)).

Notation I := (r_st R).
Notation gpos z := (i_pos (r_st R) (gz_st z)).
Notation gcap z := (i_capacity (r_st R) (gz_st z)).
Notation gbuf z := (contents (gz_st z)).
Notation gptr z := (r_as_ptr R (gz_st z)).
Notation ginv := (GenSerFacts.ginv R inv contents).
Notation gdone := (GenSerFacts.gdone R inv contents (UP := UP)).
Notation gstop := (GenSerFacts.gstop R inv (UP := UP)).
Notation gat := (GenSerFacts.gat R inv contents).

(** ** Correcting pointers *)

(** The words at [l] hold [sp + tgt q]; the rest below [n] is as before. *)
Definition gfixed (n : N) (l : list N) (tgt : N -> N) (sp : N) (b b' : mem) : Prop :=
  (forall q, In q l -> word_at_is b' q (sp + tgt q)) /\
  (forall i, i < n -> (forall q, In q l -> i < q \/ q + pW <= i) -> b' i = b i).

Section Through.
Hypothesis PT : ptrs_through R inv contents.
Hypothesis HM : pW <= MVA.

Lemma g_correct_all_eq base sp tgt : forall l s,
  inv s -> NoDup l ->
  (forall q, In q l -> (pW | q) /\ q + pW <= i_pos I s /\
     base + tgt q < umod /\ sp + tgt q < umod /\ word_at_is (contents s) q (base + tgt q)) ->
  exists s', g_correct_all R (wrapping_sub sp base) l s = Ok tt s' /\ inv s' /\
     i_pos I s' = i_pos I s /\ r_as_ptr R s' = r_as_ptr R s /\
     gfixed (i_pos I s) l tgt sp (contents s) (contents s').
Proof.
  induction l as [|q l IH]; intros s Hi Hnd Hq; cfg.
  - exists s. cbn. ands; auto. split; [intros q []|auto].
  - cbn [g_correct_all]. destruct (Hq q (or_introl eq_refl)) as (Q1 & Q2 & Q3 & Q4 & Q5).
    destruct (PT s q (base + tgt q) (wrapping_sub sp base) Hi HM Q1 Q2 (read_word_is _ _ _ Q3 Q5))
      as (s1 & E1 & Hi1 & Hp1 & Ha1 & Hb1).
    rewrite (shift_right C) in Hb1 by lia.
    rewrite (bind_ok _ _ _ _ _ E1).
    inversion Hnd as [|? ? Hni Hnd']; subst.
    assert (Hap : forall q', In q' l -> q' + pW <= q \/ q + pW <= q').
    { intros q' Hin. destruct (Hq q' (or_intror Hin)) as (D & _).
      apply words_apart; auto; [lia|]. intros ->. contradiction. }
    destruct (IH s1) as (s' & E & Hi' & Hp' & Ha' & F1 & F2); auto.
    { intros q' Hin. destruct (Hq q' (or_intror Hin)) as (D1 & D2 & D3 & D4 & D5). rewrite Hp1. ands; auto.
      intros i Hi'. rewrite Hb1 by lia. rewrite blit_out; [apply D5; exact Hi'|].
      destruct (Hap q' Hin); lia. }
    exists s'. rewrite E. rewrite Hp1 in *. ands; auto; try congruence. split.
    + intros q' [<-|Hin]; [|apply F1; exact Hin].
      intros i Hi''. rewrite F2; [|lia|].
      * rewrite Hb1 by lia. rewrite blit_in by lia. f_equal. lia.
      * intros q' Hin. destruct (Hap q' Hin); lia.
    + intros i Hlt Hi''. rewrite F2; [|lia|].
      * rewrite Hb1 by lia. apply blit_out. specialize (Hi'' q (or_introl eq_refl)). lia.
      * intros q' Hin. apply Hi''. right; exact Hin.
Qed.

(** A list of groups, those already at the final address being skipped. *)
Lemma g_correct_past_eq sp tgt : forall gs s,
  inv s -> NoDup (flat_map pg_pos gs) ->
  (forall g q, In g gs -> In q (pg_pos g) -> (pW | q) /\ q + pW <= i_pos I s /\
     pg_addr g + tgt q < umod /\ sp + tgt q < umod /\ word_at_is (contents s) q (pg_addr g + tgt q)) ->
  exists s', g_correct_past R gs sp s = Ok tt s' /\ inv s' /\
     i_pos I s' = i_pos I s /\ r_as_ptr R s' = r_as_ptr R s /\
     gfixed (i_pos I s) (flat_map pg_pos gs) tgt sp (contents s) (contents s').
Proof.
  induction gs as [|g gs IH]; intros s Hi Hnd Hq; cfg.
  - exists s. cbn. ands; auto. split; [intros q []|auto].
  - cbn [g_correct_past flat_map] in *.
    assert (Hnd1 : NoDup (pg_pos g) /\ NoDup (flat_map pg_pos gs) /\
                   forall q, In q (pg_pos g) -> ~ In q (flat_map pg_pos gs)).
    { clear - Hnd. induction (pg_pos g) as [|x l IHl]; cbn in *.
      - ands; auto. constructor.
      - inversion Hnd as [|? ? Hx Hn]; subst. destruct (IHl Hn) as (A & B & D).
        ands; auto.
        + constructor; [|exact A]. intros Hin. apply Hx. apply in_or_app; auto.
        + intros q [->|Hin]; [intros Hin; apply Hx; apply in_or_app; auto|auto]. }
    destruct Hnd1 as (N1 & N2 & N3).
    assert (Hg1 : exists s1,
       (if negb (pg_addr g =? sp) then g_correct_ptrs R g sp else ret tt) s = Ok tt s1 /\ inv s1 /\
       i_pos I s1 = i_pos I s /\ r_as_ptr R s1 = r_as_ptr R s /\
       gfixed (i_pos I s) (pg_pos g) tgt sp (contents s) (contents s1)).
    { destruct (N.eqb_spec (pg_addr g) sp) as [He|Hne]; cbn [negb].
      - exists s. ands; auto. split; [|auto].
        intros q Hin. rewrite <- He. apply (Hq g q (or_introl eq_refl) Hin).
      - unfold g_correct_ptrs. apply g_correct_all_eq; auto.
        intros q Hin. apply (Hq g q (or_introl eq_refl) Hin). }
    destruct Hg1 as (s1 & E1 & Hi1 & Hp1 & Ha1 & F1 & F2).
    rewrite (bind_ok _ _ _ _ _ E1).
    assert (Hal : forall q, In q (pg_pos g ++ flat_map pg_pos gs) -> (pW | q) /\ q + pW <= i_pos I s).
    { intros q Hin. apply in_app_or in Hin. destruct Hin as [Hin|Hin].
      - destruct (Hq g q (or_introl eq_refl) Hin) as (D1 & D2 & _). auto.
      - apply in_flat_map in Hin. destruct Hin as (g' & G1 & G2).
        destruct (Hq g' q (or_intror G1) G2) as (D1 & D2 & _). auto. }
    destruct (IH s1) as (s' & E2 & Hi2 & Hp2 & Ha2 & F3 & F4); auto.
    { intros g' q Hg Hin. destruct (Hq g' q (or_intror Hg) Hin) as (D1 & D2 & D4 & D5 & D6). rewrite Hp1.
      ands; auto. intros i Hi'. rewrite F2; [apply D6; exact Hi'|lia|].
      intros q' Hin'.
      assert (q' <> q).
      { intros ->. apply (N3 q Hin'). apply in_flat_map. exists g'; auto. }
      assert ((pW | q')) by (apply Hal, in_or_app; auto).
      destruct (words_apart q' q ltac:(lia)); auto; lia. }
    exists s'. rewrite E2. rewrite Hp1 in *. ands; auto; try congruence. split.
    + intros q Hin. apply in_app_or in Hin. destruct Hin as [Hin|Hin]; [|apply F3; exact Hin].
      intros i Hi'.
      assert (HH : (pW | q) /\ q + pW <= i_pos I s) by (apply Hal, in_or_app; auto).
      destruct HH as [HH1 HH2].
      rewrite F4; [apply F1; auto|lia|].
      intros q' Hin'.
      assert (q' <> q) by (intros ->; apply (N3 q Hin Hin')).
      assert ((pW | q')) by (apply Hal, in_or_app; auto).
      destruct (words_apart q' q ltac:(lia)); auto; lia.
    + intros i Hlt Hi'. rewrite F4; [|lia|].
      * apply F2; [lia|]. intros q Hin. apply Hi'. apply in_or_app; auto.
      * intros q Hin. apply Hi'. apply in_or_app; auto.
Qed.
End Through.

Lemma g_co_finalize_past z :
  g_co_finalize R z = glift (g_correct_past R (pt_current (gz_ptrs z) :: pt_past (gz_ptrs z)) (gptr z)) z.
Proof.
  unfold g_co_finalize. erewrite bind_ok by reflexivity.
  erewrite bind_ok by reflexivity. cbn [g_correct_past].
  set (g := pt_current (gz_ptrs z)). unfold group_is_empty.
  destruct (negb (pg_addr g =? gptr z)) eqn:En; cbn [andb].
  - destruct (pg_pos g) as [|q l] eqn:Eg; cbn [negb].
    + unfold bind, glift, ret, g_correct_ptrs. rewrite Eg. cbn.
      destruct (g_correct_past _ _ _ _); reflexivity.
    + unfold bind, glift. destruct (g_correct_ptrs R g (gptr z) (gz_st z)) as [u w1|e w1| | |]; auto.
  - unfold bind, glift, ret. cbn. destruct (g_correct_past _ _ _ _); reflexivity.
Qed.

Definition g_final_base (k : kind) (s : St) : N := match k with Complete => r_as_ptr R s | _ => 0 end.

Lemma g_finalize_eq k z G :
  storage_for k R inv contents -> ginv k z G ->
  exists z', g_finalize R k z = Ok tt z' /\
    gpos z' = gpos z /\ gptr z' = gptr z /\ GenSpec.ready I inv (gz_st z') /\
    forall i, i < gpos z -> gbuf z' i = overlay G (gbuf z) (g_final_base k (gz_st z)) i.
Proof.
  intros HS Hz. pose proof Hz as (Hok & Hin & Hnd & Hmv & bases & Hw & Hk). cfg.
  destruct k; cbn [g_finalize g_final_base].
  - cbn in Hk. subst G. exists z. ands; auto.
  - cbn in Hk. subst G. exists z. ands; auto.
  - exists z. ands; auto. intros i _. unfold overlay.
    destruct (find (covers i) G) as [[q t]|] eqn:Ef; [|reflexivity].
    apply find_some in Ef. destruct Ef as [Hi Hc]. apply covers_true in Hc.
    cbn in Hk. clear - Hw Hk Hi Hc. unfold words_ok in Hw.
    induction Hw as [|[q' t'] base G bases [A B] Hw IH]; [contradiction|].
    inversion Hk; subst. destruct Hi as [Heq|Hi]; [|auto].
    inversion Heq; subst. cbn in B. specialize (B (i - q) ltac:(lia)).
    replace (q + (i - q)) with i in B by lia. exact B.
  - destruct HS as (_ & Hct & PT).
    destruct G as [|g0 G0] eqn:EG.
    + (* no pointer was written *)
      assert (Hp : flat_map pg_pos (pt_current (gz_ptrs z) :: pt_past (gz_ptrs z)) = []).
      { cbn in Hk. destruct bases; cbn in Hk;
          pose proof (recs_pos (gz_ptrs z)) as Hr; rewrite Hk in Hr; cbn in Hr; symmetry in Hr;
          apply app_eq_nil in Hr; destruct Hr as [R1 R2]; cbn; rewrite R1, R2; reflexivity. }
      assert (Hnop : forall gs w sp, flat_map pg_pos gs = [] -> g_correct_past R gs sp w = Ok tt w).
      { clear. induction gs as [|g gs IH]; intros w sp Hx; [reflexivity|]. cbn in Hx.
        apply app_eq_nil in Hx. destruct Hx as [X1 X2]. cbn [g_correct_past].
        erewrite bind_ok; [apply IH; exact X2|].
        destruct (negb _); [|reflexivity]. unfold g_correct_ptrs. rewrite X1. reflexivity. }
      exists z. rewrite g_co_finalize_past. ands; auto.
      rewrite (glift_eq _ z tt (gz_st z)) by (apply Hnop; exact Hp). destruct z; reflexivity.
    + rewrite <- EG in *. assert (Hmv' : pW <= MVA) by (destruct Hmv; [congruence|assumption]).
      set (gs := pt_current (gz_ptrs z) :: pt_past (gz_ptrs z)).
      assert (Hlen : length bases = length G) by (symmetry; eapply F2_length; exact Hw).
      assert (Hperm : Permutation (flat_map pg_pos gs) (map fst G)).
      { cbn in Hk. pose proof (recs_pos (gz_ptrs z)) as Hr. rewrite Hk in Hr.
        rewrite combine_fst in Hr by (rewrite map_length; exact Hlen).
        rewrite Hr. unfold gs. cbn. apply Permutation_app_comm. }
      assert (Hrec : forall g q, In g gs -> In q (pg_pos g) -> In (pg_addr g, q) (recs (gz_ptrs z))).
      { intros g q Hg Hq. unfold recs, group_recs. apply in_or_app. destruct Hg as [<-|Hg].
        - right. apply in_map. exact Hq.
        - left. apply in_flat_map. exists g. split; [exact Hg|]. apply in_map. exact Hq. }
      assert (Hword : forall base q, In (base, q) (recs (gz_ptrs z)) -> exists t, In (q, t) G /\
                base + t < umod /\ word_at_is (gbuf z) q (base + t)).
      { cbn in Hk. rewrite Hk. clear - Hw. induction Hw as [|[q' t'] base' G bases [A B] Hw IH]; cbn; [tauto|].
        intros base q [Heq|Hi].
        - inversion Heq; subst. exists t'. cbn in *. auto.
        - destruct (IH base q Hi) as (t & T1 & T2 & T3). exists t; auto. }
      destruct (ready_le R inv contents empties K _ Hok) as [Hpc Hcm].
      destruct (g_correct_past_eq PT Hmv' (gptr z) (target G) gs (gz_st z)) as (s' & E & Hi' & Hp' & Ha' & F1 & F2).
      * apply Hok.
      * eapply Permutation_NoDup; [apply Permutation_sym; exact Hperm|exact Hnd].
      * intros g q Hg Hq. destruct (Hword _ _ (Hrec g q Hg Hq)) as (t & T1 & T2 & T3).
        destruct (Hin q t T1) as (I1 & I2 & I3). rewrite (target_in G q t Hnd T1).
        destruct (Hct (gz_st z) (proj1 Hok) ltac:(lia)) as (P1 & P2 & P3). ands; auto; lia.
      * exists (mkGZ s' (gz_map z) (gz_ptrs z)).
        rewrite g_co_finalize_past. fold gs. rewrite (glift_eq _ z tt _ E). cbn [gz_st]. ands; auto.
        -- split; [exact Hi'|]. rewrite Hp'. apply Hok.
        -- intros i Hlt. unfold overlay. destruct (find (covers i) G) as [[q t]|] eqn:Ef.
           ++ apply find_some in Ef. destruct Ef as [Hi Hcv]. apply covers_true in Hcv.
              assert (Hqin : In q (flat_map pg_pos gs)).
              { eapply Permutation_in; [apply Permutation_sym; exact Hperm|]. apply (in_map fst) in Hi. exact Hi. }
              specialize (F1 q Hqin (i - q) ltac:(lia)). rewrite (target_in G q t Hnd Hi) in F1.
              replace (q + (i - q)) with i in F1 by lia. exact F1.
           ++ apply F2; [exact Hlt|]. intros q Hq.
              assert (Hq' : In q (map fst G)) by (eapply Permutation_in; [exact Hperm|exact Hq]).
              apply in_map_iff in Hq'. destruct Hq' as [[q' t] [Heq Hi]]. cbn in Heq. subst q'.
              pose proof (find_none _ _ Ef _ Hi) as Hf. cbn in Hf.
              unfold covers in Hf; cbn in Hf. lia.
Qed.

(** ** Whole values *)
Definition grdone (k : kind) (z : gz St) (G : ptrlist) (ps : list (layout * N))
    {A} (x0 : A) (X : N -> mem -> Prop) (o : outcome (gz St) A) : Prop :=
  match o with
  | Ok x z' => exists G',
      x = x0 /\ ginv k z' (G ++ G') /\
      gpos z' = end_pos (gpos z) ps /\ gpos z <= gpos z' /\ gpos z' <= MAXC /\
      (forall q t, In (q, t) G' -> gpos z <= q /\ q + pW <= gpos z') /\
      (forall i, i < gpos z -> gbuf z' i = gbuf z i) /\
      (forall B M, (MVA | B) -> B + gpos z' <= umod ->
         gfits_mem R contents z z' (G ++ G') (fun _ => False) B M -> X B M)
  | Panic e z' =>
      gstop z ps e /\ GenSpec.ready I inv (gz_st z') /\ gpos z <= gpos z' /\
      (forall i, i < gpos z -> gbuf z' i = gbuf z i) /\
      (exists G', ginv k z' (G ++ G') /\ forall q t, In (q, t) G' -> gpos z <= q)
  | Abort => True
  | UB | OutOfFuel => False
  end.

Lemma grdone_seq k z G ps1 ps2 {A B} (x1 : A) (x2 : B) (R1 R2 : N -> mem -> Prop)
    (f1 : M (gz St) A) (f2 : A -> M (gz St) B) :
  ginv k z G ->
  grdone k z G ps1 x1 R1 (f1 z) ->
  (forall z1 G1, ginv k z1 (G ++ G1) -> gpos z1 = end_pos (gpos z) ps1 ->
     grdone k z1 (G ++ G1) ps2 x2 R2 (f2 x1 z1)) ->
  grdone k z G (ps1 ++ ps2) x2 (fun B M => R1 B M /\ R2 B M) (bind f1 f2 z).
Proof.
  intros Hz H1' H2'. cfg. unfold bind.
  destruct (f1 z) as [x z1|e z1| | |] eqn:Ef; auto.
  2:{ cbn in *. destruct H1' as (B2 & B3 & B4 & B5 & B6). ands; auto.
      eapply gstop_wider; [exact B2|lia|]. rewrite end_pos_app. apply (end_pos_ge C). }
  cbn in H1'. destruct H1' as (G1 & -> & I1 & I3 & I4 & I5 & I6 & I7 & I10).
  specialize (H2' z1 G1 I1 I3).
  destruct (f2 x1 z1) as [y z2|e z2| | |]; auto.
  - cbn in H2'. destruct H2' as (G2 & -> & J1 & J3 & J4 & J5 & J6 & J7 & J10).
    cbn. exists (G1 ++ G2). rewrite app_assoc. ands; auto; try lia.
    + rewrite end_pos_app, <- I3. exact J3.
    + intros q t Hin. apply in_app_or in Hin. destruct Hin as [Hin|Hin].
      * destruct (I6 q t Hin). lia.
      * destruct (J6 q t Hin). lia.
    + intros i Hi. rewrite J7 by lia. apply I7; lia.
    + intros B' M HB Hle Hfit. split.
      * apply I10; [exact HB|lia|]. intros i [[]|Hi].
        rewrite Hfit by (right; lia).
        rewrite overlay_app_r.
        -- apply overlay_buf. apply J7; lia.
        -- intros q t Hin. destruct (covers i (q, t)) eqn:Ec; [|reflexivity].
           apply covers_true in Ec. exfalso. destruct (J6 q t Hin). lia.
      * apply J10; [exact HB|lia|]. intros i [[]|Hi]. apply Hfit. right; lia.
  - cbn in H2' |- *. destruct H2' as (B2 & B3 & B5 & B6 & G2 & B7 & B8). ands; auto; try lia.
    + eapply gstop_wider; [exact B2|lia|]. rewrite end_pos_app, <- I3. lia.
    + intros i Hi. rewrite B6 by lia. apply I7; lia.
    + exists (G1 ++ G2). rewrite app_assoc. split; [exact B7|].
      intros q t Hin. apply in_app_or in Hin. destruct Hin as [Hin|Hin].
      * destruct (I6 q t Hin). lia.
      * pose proof (B8 q t Hin). lia.
Qed.

Lemma grdone_ret k z G {A} (x : A) : ginv k z G -> grdone k z G [] x (fun _ _ => True) (ret x z).
Proof.
  intros Hz. cfg. pose proof (ginv_ok R inv contents _ _ _ Hz) as Hok. pose proof (ready_le R inv contents empties K _ Hok) as [Hple Hcle].
  exists []. rewrite app_nil_r. ands; auto; try (cbn; lia).
Qed.

Lemma grdone_imp k z G ps {A} (x : A) (X X' : N -> mem -> Prop) o :
  grdone k z G ps x X o -> (forall B M, (MVA | B) -> X B M -> X' B M) -> grdone k z G ps x X' o.
Proof.
  intros H HR. destruct o as [a z'|e z'| | |]; auto; cbn in *.
  destruct H as (G' & H1 & H2 & H3 & H4 & H5 & H6 & H7 & H10).
  exists G'. ands; auto.
Qed.


Lemma g_from_storage_inv k s : GenSpec.ready I inv s -> ginv k (g_from_storage s) [].
Proof.
  intros Hok. unfold GenSerFacts.ginv, g_from_storage; cbn [gz_st gz_ptrs]. ands; auto.
  - intros q t [].
  - constructor.
  - exists []. split; [constructor|]. destruct k; cbn; auto.
Qed.

Section Values.
Variable E : tenv.
Hypothesis HE : wf_env E.
Variable k : kind.
Variable m : mem.
Variables Hin Hout : header.
Hypothesis T : transfers k Hin Hout.
Hypothesis HS : storage_for k R inv contents.


Lemma g_root_done fuel t a v z G :
  input_ok E m Hin fuel t a v -> ginv k z G ->
  grdone k z G (allocations E t v) (root_pos E (gpos z) t)
    (root_ok E k Hout t v (root_pos E (gpos z) t))
    (g_serialize_value R k E m fuel t a z).
Proof.
  intros (Hr & Hw & Hf & Ha) Hz. cfg.
  pose proof (wf_good C E HE t Hw) as Hg.
  pose proof (ginv_ok R inv contents _ _ _ Hz) as Hok.
  pose proof (ready_le R inv contents empties K _ Hok) as [Hple Hcle].
  set (l := layout_of E t) in *.
  unfold root_pos. change (size_of E t) with (l_size l) in *. fold l.
  (* the work after the root has been pushed *)
  assert (Htail : forall p z1, ginv k z1 G -> gpos z <= gpos z1 -> gpos z1 <= MAXC ->
     (forall i, i < gpos z -> gbuf z1 i = gbuf z i) ->
     (forall i, seg p (l_size l) i -> gpos z <= i /\ i < gpos z1 /\ gbuf z1 i = m (a + (i - p))) ->
     (tracking k = true -> gz_map z1 = mkMap a p) ->
     (l_align l | p) ->
     forall ps0, gpos z1 = end_pos (gpos z) ps0 ->
     (forall M f, (vdepth v < f)%nat ->
        decode E M f t p (gpos z1) = Some (v, end_pos (gpos z1) (owned E t v)) ->
        decode_root E M f t p = Some v) ->
     grdone k z G (ps0 ++ owned E t v) p (root_ok E k Hout t v p)
       ((g_ser_data R k E m fuel t a ;;; ret p) z1)).
  { intros p z1 Hz1 Hpge Hmax Hkeep Hcp Hmap Hal ps0 Hps Hdec.
    assert (Hrd : gat k z1 G (seg p (l_size l)) m p a).
    { unfold GenSerFacts.gat. ands; auto.
      - intros i Hi. destruct (Hcp i Hi) as (D1 & D2 & D3). unfold seg in Hi. ands; auto; lia.
      - intros q t' Hq' i Hi1 Hi2 Hs. destruct (Hcp i Hs) as (D1 & _).
        destruct Hz as (_ & Hzq & _). destruct (Hzq q t' Hq'). lia.
      - intros Hk. rewrite (Hmap Hk). cbn. lia. }
    pose proof (g_value_done (UP := UP) R C inv contents empties K KP E HE k m Hin Hout T HS t a v Hr Hw fuel z1 G p Hf Hrd Hal Ha) as HD.
    unfold bind. destruct (g_ser_data R k E m fuel t a z1) as [u z2|e z2| | |]; auto.
      - cbn in HD. destruct HD as (G' & J1 & J2 & J3 & J4 & J5 & J6 & J7 & J10).
      exists G'. ands; auto; try lia.
      + rewrite end_pos_app, <- Hps. exact J3.
      + intros q t' Hq'. destruct (J6 q t' Hq') as [Hi|Hi]; [|lia].
        destruct (Hcp q (Hi q ltac:(lia) ltac:(lia))) as (D1 & _).
        destruct (Hcp (q + pW - 1) (Hi (q + pW - 1) ltac:(lia) ltac:(lia))) as (_ & D2 & _). lia.
      + intros i Hi. rewrite J7; [apply Hkeep; exact Hi|lia|].
        intros Hs. destruct (Hcp i Hs). lia.
      + intros B M HB Hle Hfit.
        assert (HV : VS E k m Hout t p a (gpos z1) v B M).
        { apply J10; auto. intros i Hi. apply Hfit. right.
          destruct Hi as [Hi|Hi]; [destruct (Hcp i Hi); lia|lia]. }
        destruct HV as (V1 & V2 & V3). split; [exact V1|]. intros M' HM f Hf'. apply Hdec; auto.
    - cbn in HD |- *. destruct HD as (B2 & B3 & B5 & B6 & G' & B7 & B8). ands; auto; try lia.
      + eapply gstop_wider; [exact B2|lia|]. rewrite end_pos_app, <- Hps. lia.
      + intros i Hi. rewrite B6; [apply Hkeep; exact Hi|lia|].
        intros Hs. destruct (Hcp i Hs). lia.
      + exists G'. split; [exact B7|]. intros q t' Hq'. destruct (B8 q t' Hq') as [Hi|Hi]; [|lia].
        destruct (Hcp q (Hi q ltac:(lia) ltac:(lia))) as (F1 & _). lia. }
  unfold g_serialize_value, g_serialize_value_with, g_push_raw_slice, allocations.
  change (size_of E t) with (l_size l). fold l.
  cbn [sl_lay sl_len sl_data slice_at sl_addr].
  destruct (N.eqb_spec (l_size l) 0) as [Hz0|Hnz].
  - (* zero-sized root *)
    assert (Hgo : forall z1, gz_st z1 = gz_st z -> gz_ptrs z1 = gz_ptrs z ->
       (tracking k = true -> gz_map z1 = mkMap a 0) ->
       grdone k z G ([] ++ owned E t v) 0 (root_ok E k Hout t v 0) ((g_ser_data R k E m fuel t a ;;; ret 0) z1)).
    { intros z1 Hs Hp Hm. apply Htail; auto.
      - destruct z1 as [s1 m1 p1]. cbn in *. subst. apply (ginv_map R inv contents k z G m1 Hz).
      - rewrite Hs; lia.
      - rewrite Hs; lia.
      - rewrite Hs; auto.
      - intros i; unfold seg; lia.
      - apply N.divide_0_r.
      - rewrite Hs; reflexivity.
      - intros M f Hf' _. unfold decode_root.
        rewrite (proj2 (zst_value C E HE _ _ _ _ _ Hr Hw Hz0)) by exact Hf'. reflexivity. }
    assert (Hps : glift (g_push_slice I l 1 (mem_from m a)) z = Ok 0 z).
    { rewrite (glift_eq _ z 0 (gz_st z)); [destruct z; reflexivity|]. apply g_push_zst; exact Hz0. }
    destruct k; erewrite bind_ok by exact Hps.
    + apply Hgo; auto. discriminate.
    + erewrite bind_ok by reflexivity. apply Hgo; auto.
    + erewrite bind_ok by reflexivity. apply Hgo; auto.
    + erewrite bind_ok by reflexivity. apply Hgo; auto.
  - pose proof (g_push_spec C R inv contents empties K KP (gz_st z) l 1 (mem_from m a) Hok Hg ltac:(lia) ltac:(lia)) as HP.
    rewrite N.mul_1_r in HP. specialize (HP ltac:(apply Hg)).
    set (st := push_start (gpos z) l) in *.
    assert (Hpush : forall (f : N -> M (gz St) N),
      (forall z1, GenSpec.ready I inv (gz_st z1) -> gpos z1 = push_end (gpos z) l 1 -> push_end (gpos z) l 1 <= MAXC ->
         (forall i, i < gpos z -> gbuf z1 i = gbuf z i) ->
         (forall i, i < l_size l -> gbuf z1 (st + i) = m (a + i)) ->
         gz_ptrs z1 = gz_ptrs z ->
         grdone k z G ([(l, 1)] ++ owned E t v) st (root_ok E k Hout t v st) (f st z1)) ->
      grdone k z G ([(l, 1)] ++ owned E t v) st (root_ok E k Hout t v st) (bind (glift (g_push_slice I l 1 (mem_from m a))) f z)).
    { intros f Hcont. unfold bind, glift.
      destruct (g_push_slice I l 1 (mem_from m a) (gz_st z)) as [p w1|e w1| | |] eqn:Ep; auto.
      - destruct HP as (-> & P2 & P3 & P4 & P5 & P6). apply Hcont; auto.
      - destruct HP as (P1 & P2 & P3 & P4). cbn.
        pose proof (push_start_ge C (gpos z) l (proj1 Hg)) as Hge. fold st in Hge. ands; auto.
        + left. eapply refused_wider; [exact P1|lia|]. cbn [end_pos app]. apply (end_pos_ge C).
        + rewrite P3. exact Hge.
        + exists []. rewrite app_nil_r. split; [|intros q t' []].
          apply (ginv_push R inv contents k z G w1 Hz P2); [rewrite P3; exact Hge|exact P4]. }
    assert (Hgo : forall z1, GenSpec.ready I inv (gz_st z1) -> gpos z1 = push_end (gpos z) l 1 -> push_end (gpos z) l 1 <= MAXC ->
         (forall i, i < gpos z -> gbuf z1 i = gbuf z i) ->
         (forall i, i < l_size l -> gbuf z1 (st + i) = m (a + i)) ->
         gz_ptrs z1 = gz_ptrs z ->
         (tracking k = true -> gz_map z1 = mkMap a st) ->
         grdone k z G ([(l, 1)] ++ owned E t v) st (root_ok E k Hout t v st) ((g_ser_data R k E m fuel t a ;;; ret st) z1)).
    { intros z1 D1 D2 D3 D4 D5 D8 D9.
      pose proof (push_end_ge C (gpos z) l 1) as Hpe. fold st in Hpe. rewrite N.mul_1_r in Hpe.
      pose proof (push_start_ge C (gpos z) l (proj1 Hg)) as Hst. fold st in Hst.
      apply Htail; auto; try lia.
      - pose proof (ginv_push R inv contents k z G (gz_st z1) Hz D1 ltac:(lia) D4) as Hzi.
        destruct z1 as [s1 m1 p1]. cbn in *. subst p1.
        apply (ginv_map R inv contents k (mkGZ s1 (gz_map z) (gz_ptrs z)) G m1 Hzi).
      - intros i Hi. unfold seg in Hi. ands; try lia.
        replace i with (st + (i - st)) at 1 by lia. apply D5. lia.
      - apply (push_start_align C). apply Hg.
      - intros M f Hf' Hd. unfold decode_root.
        assert (Hc : round_up (st + size_of E t) VA = gpos z1).
        { rewrite D2. unfold push_end. fold st. rewrite N.mul_1_r. reflexivity. }
        rewrite Hc, Hd. reflexivity. }
    destruct k; apply Hpush; intros z1 D1 D2 D3 D4 D5 D8.
    + apply Hgo; auto. discriminate.
    + erewrite bind_ok by reflexivity. apply Hgo; auto.
    + erewrite bind_ok by reflexivity. apply Hgo; auto.
    + erewrite bind_ok by reflexivity. apply Hgo; auto.
Qed.

Lemma g_values_done fuel : forall (xs : list item) z G,
  Forall (fun '(t, a, v) => input_ok E m Hin fuel t a v) xs -> ginv k z G ->
  grdone k z G (all_allocations E (map it_tv xs)) (root_positions E (gpos z) (map it_tv xs))
    (fun B M => Forall2 (fun '(t, a, v) p => root_ok E k Hout t v p B M) xs (root_positions E (gpos z) (map it_tv xs)))
    (g_serialize_values R k E m fuel (map it_in xs) z).
Proof.
  induction xs as [|[[t a] v] xs IH]; intros z G Hall Hz.
  - cbn [map g_serialize_values all_allocations flat_map root_positions].
    eapply grdone_imp; [apply grdone_ret; exact Hz|]. constructor.
  - inversion Hall as [|? ? Hx Hxs]; subst.
    cbn [map it_in it_tv fst snd g_serialize_values all_allocations flat_map root_positions].
    fold (all_allocations E (map it_tv xs)).
    eapply grdone_imp.
    + eapply grdone_seq; [exact Hz|apply g_root_done; eauto|].
      intros z1 G1 Hz1 Hp1.
      pose proof (IH z1 (G ++ G1) Hxs Hz1) as HI. rewrite Hp1 in HI.
      rewrite <- (app_nil_r (all_allocations E (map it_tv xs))).
      eapply grdone_seq; [exact Hz1|exact HI|].
      intros z2 G2 Hz2 _. apply grdone_ret; exact Hz2.
    + cbv beta. intros B M HB (R1 & R2 & _). constructor; auto.
Qed.

(** The base address with which the output is read. *)
Definition g_root_final (s : St) (t : ty) (v : val) (p : N) : Prop :=
  (tracking k = true ->
     repr E Hout (g_out_mem I contents (g_final_base k s) s) t (g_final_base k s + p) v) /\
  (forall f, (vdepth v < f)%nat -> decode_root E (g_out_mem I contents 0 s) f t p = Some v).

Definition g_final_ok (s : St) (xs : list item) (rs : list N) (s' : St) : Prop :=
  rs = root_positions E (i_pos I s) (map it_tv xs) /\
  i_pos I s' = end_pos (i_pos I s) (all_allocations E (map it_tv xs)) /\
  GenSpec.ready I inv s' /\
  (forall i, i < i_pos I s -> contents s' i = contents s i) /\
  Forall2 (fun '(t, a, v) p => g_root_final s' t v p) xs rs.

Theorem g_serialize_all_spec fuel xs s :
  ~ UP -> GenSpec.ready I inv s ->
  Forall (fun '(t, a, v) => input_ok E m Hin fuel t a v) xs ->
  match g_serialize_all R k E m fuel (map it_in xs) (g_from_storage s) with
  | Ok rs z' => g_final_ok s xs rs (gz_st z')
  | Panic e z' => refused_within I inv (i_pos I s) (end_pos (i_pos I s) (all_allocations E (map it_tv xs))) e /\
      GenSpec.ready I inv (gz_st z') /\ i_pos I s <= gpos z' /\
      (forall i, i < i_pos I s -> gbuf z' i = contents s i)
  | Abort => True
  | UB | OutOfFuel => False
  end.
Proof.
  intros NUP Hok Hall. cfg.
  pose proof (g_from_storage_inv k s Hok) as Hz.
  pose proof (g_values_done fuel xs (g_from_storage s) [] Hall Hz) as HV.
  unfold g_serialize_all, bind.
  destruct (g_serialize_values R k E m fuel (map it_in xs) (g_from_storage s)) as [rs z1|e z1| | |]; auto.
  2:{ cbn in HV. destruct HV as ([V1|[V1 _]] & V2 & V3 & V4 & _); [ands; auto|contradiction]. }
  cbn [grdone app] in HV. destruct HV as (G & -> & V1 & V2 & V3 & V4 & V5 & V6 & V9).
  cbn [g_from_storage gz_st] in *.
  pose proof (ginv_ok R inv contents _ _ _ V1) as Hok1.
  destruct (ready_le R inv contents empties K _ Hok1) as [Hpc Hcm].
  destruct (g_finalize_eq k z1 G HS V1) as (z' & -> & Z1 & Z3 & Z6 & Z7).
  cbn [ret]. unfold g_final_ok. ands.
  - reflexivity.
  - congruence.
  - exact Z6.
  - intros i Hi. rewrite Z7 by lia. rewrite overlay_none; [apply V6; exact Hi|].
    intros q t Hq. destruct (V5 q t Hq). unfold covers; cbn. lia.
  - set (l := map it_tv xs) in *.
    assert (Hbase : g_final_base k (gz_st z') = g_final_base k (gz_st z1)).
    { unfold g_final_base. destruct k; auto. }
    assert (Hxs : Forall2 (fun '(t, a, v) p => input_ok E m Hin fuel t a v) xs (root_positions E (i_pos I s) l)).
    { subst l. clear - Hall. generalize (i_pos I s). induction Hall as [|[[t a] v] xs Hx _ IH]; intros p; cbn; constructor; auto. }
    assert (Hsz : Forall2 (fun '(t, a, v) p => 0 < size_of E t -> p + size_of E t <= gpos z1) xs (root_positions E (i_pos I s) l)).
    { rewrite V2. subst l. clear - Hall C HE.
      assert (Hw : Forall (fun tv => wf_ty E (fst tv)) (map it_tv xs)).
      { induction Hall as [|[[t a] v] xs Hx _ IH]; cbn; constructor; auto. apply Hx. }
      pose proof (root_positions_in C E HE (map it_tv xs) (i_pos I s) Hw) as HI.
      revert HI. generalize (end_pos (i_pos I s) (all_allocations E (map it_tv xs))).
      generalize (root_positions E (i_pos I s) (map it_tv xs)). generalize (i_pos I s). clear.
      induction xs as [|[[t a] v] xs IH]; intros p0 ps e HI; cbn in HI; inversion HI; subst; constructor; auto.
      - intros Hs. apply H1. exact Hs.
      - eapply IH. eassumption. }
    destruct (N.eq_dec (gpos z1) 0) as [Hp0|Hp0].
    + (* nothing was written: only zero-sized values *)
      clear - Hxs Hsz Hp0 C HE Hin T. induction Hxs as [|[[t a] v] p xs ps Hx Hxs IH]; constructor; inversion Hsz; subst; auto.
      destruct Hx as (Hr & Hw & _ & _).
      assert (Hz0 : size_of E t = 0) by lia.
      split.
      * intros _. eapply zst_repr; eauto.
      * intros f Hf. unfold decode_root. rewrite (proj2 (zst_value C E HE _ _ _ _ _ Hr Hw Hz0)) by exact Hf. reflexivity.
    + assert (Hfit : forall B, (MVA | B) -> B + gpos z1 <= umod -> B = g_final_base k (gz_st z1) \/ (k <> Complete /\ B = 0) ->
         Forall2 (fun '(t, a, v) p => root_ok E k Hout t v p B (g_out_mem I contents B (gz_st z'))) xs (root_positions E (i_pos I s) l)).
      { intros B HB Hle HBe. apply V9; auto. intros i [[]|Hi]. unfold g_out_mem. cbn [gz_st g_from_storage] in Hi.
        rewrite Z1. rewrite (proj2 (N.leb_le B (B + i))) by lia. rewrite (proj2 (N.ltb_lt (B + i) _)) by lia.
        cbn [andb]. replace (B + i - B) with i by lia. rewrite Z7 by lia.
        destruct HBe as [->|[Hk ->]]; [reflexivity|]. f_equal. unfold g_final_base. destruct k; congruence. }
      assert (F1 : Forall2 (fun '(t, a, v) p => root_ok E k Hout t v p (g_final_base k (gz_st z1))
                        (g_out_mem I contents (g_final_base k (gz_st z1)) (gz_st z')))
                     xs (root_positions E (i_pos I s) l)).
      { destruct k eqn:Ek; cbn [g_final_base] in *.
        1-3: apply Hfit; auto; [apply N.divide_0_r|lia].
        destruct HS as (_ & Hct & _). destruct (Hct (gz_st z1) (proj1 Hok1) ltac:(lia)) as (P1 & P2 & P3).
        apply Hfit; auto; [|lia]. eapply N.divide_trans; [apply (c_MVA_dvd_SA C)|exact P2]. }
      assert (HM : forall i, g_out_mem I contents 0 (gz_st z') i = g_out_mem I contents (g_final_base k (gz_st z1)) (gz_st z') (g_final_base k (gz_st z1) + i)).
      { intros i. unfold g_out_mem. set (b := g_final_base k (gz_st z1)).
        replace (b + i - b) with (i - 0) by lia.
        destruct (N.leb_spec 0 i), (N.leb_spec b (b + i)), (N.ltb_spec i (0 + i_pos I (gz_st z'))), (N.ltb_spec (b + i) (b + i_pos I (gz_st z'))); try lia; reflexivity. }
      clear - F1 HM Hbase.
      revert F1. generalize (root_positions E (i_pos I s) l) as ps.
      clear l. induction xs as [|[[t a] v] xs IH]; intros ps F1.
      * inversion F1; constructor.
      * inversion F1 as [|? p ? ps' A F1']; subst. destruct A as [A1 A2]. constructor.
        -- split.
           ++ intros Hk. rewrite Hbase. apply A1. exact Hk.
           ++ apply A2. exact HM.
        -- apply IH; auto.
Qed.

End Values.
End GenSerRoot.
