(** * GenSession: sessions in which panics are caught, over any storage (as the end of
    ClientFacts.v). *)
From Verif Require Import Base Types Storage Serializer Serialize Spec ArithFacts StorageFacts StorageHist MemFacts TypeFacts
  SerFacts SerMain SerValue SerRoot SerProps Client ClientSpec ClientFacts
  GenStorage GenSpec GenFacts GenSerializer GenSerSpec GenSerFacts GenSerMain GenSerValue GenSerRoot
  GenClient GenClientSpec GenClientFacts.
From Coq Require Import ZifyBool ZifyNat ZifyN.
Local Open Scope N_scope.

Section GenSession.
Context {P : Params}.
Context {St : Type}.
Variable R : ra_impl St.
Hypothesis C : cfg_ok.
Variable inv : St -> Prop.
Variable contents : St -> mem.
Variable empties : bool.
Hypothesis K : keeps_contract (r_st R) inv contents empties.
Hypothesis KP : reserve_keeps_pos (r_st R) inv.
Variable E : tenv.
Hypothesis HE : wf_env E.
Variable m : mem.
Variable fuel : nat.
Variable k : kind.
Hypothesis HS : storage_for k R inv contents.

Ltac cfg :=
  pose proof (c_SA_pos C); pose proof (c_MVA_pos C); pose proof (c_VA_pos C);
  pose proof (c_VA_MVA C); pose proof (c_MVA_SA C); pose proof (c_MAXC C);
  pose proof (c_MVA_le_MAXC C); pose proof (c_sum C); pose proof (c_umod C);
  pose proof (c_SA_lt_imax C); pose proof (pW_vals (c_machine C)).

Notation I := (r_st R).
Notation gpos z := (i_pos (r_st R) (gz_st z)).
Notation gbuf z := (contents (gz_st z)).
Notation ginv := (GenSerFacts.ginv R inv contents).

Lemma g_attempts_done : forall rs z G,
  Forall (root_in E m fuel) rs -> Forall (root_proper empties) rs -> ginv k z G ->
  match g_attempt_all R k E m fuel rs z with
  | Ok outs z' => exists G', ginv k z' (G ++ G') /\ gpos z <= gpos z' /\
      (forall q t, In (q, t) G' -> gpos z <= q) /\
      (forall i, i < gpos z -> gbuf z' i = gbuf z i) /\
      (forall B M, (MVA | B) -> B + gpos z' <= umod -> gfits_mem R contents z z' (G ++ G') (fun _ => False) B M ->
         g_attempts k E m I inv M B (gpos z) rs outs (gpos z'))
  | Abort => True
  | _ => False
  end.
Proof.
  induction rs as [|[[l a] ss] rs IH]; intros z G Hall Hpl Hz; cfg.
  - cbn. exists []. rewrite app_nil_r. ands; auto; try lia.
    + intros q t [].
    + intros. constructor.
  - inversion Hall as [|? ? Hx Hxs]; subst. destruct Hx as (X1 & X2 & X3 & X4).
    inversion Hpl as [|? ? Hy Hys]; subst.
    cbn [g_attempt_all].
    assert (Hb : forall A (f : N -> M (gz St) A), bind (gets (fun z => i_pos I (gz_st z))) f z = f (gpos z) z) by reflexivity.
    rewrite Hb. clear Hb.
    pose proof (g_impl_done (UP := existsb may_panic ss = true) R C inv contents empties K KP E HE m fuel k HS l a ss z G
                  Hy (fun x => x) X1 X2 X3 X4 Hz) as HD.
    pose proof (steps_allocs_end C E m fuel _ _ _ _ X4 (push_end (gpos z) l 1) (push_end_VA _ _ _)) as Hend.
    unfold bind, g_catch.
    destruct (g_serialize_value_with R k (slice_at m l a 1) (g_run_steps R k E m fuel a ss) z) as [p z1|e z1| | |]; auto.
    + cbn [grdone] in HD. destruct HD as (G1 & -> & I1 & I3 & I4 & I5 & I6 & I7 & I10).
      specialize (IH z1 (G ++ G1) Hxs Hys I1).
      destruct (g_attempt_all R k E m fuel rs z1) as [outs z2|e z2| | |]; auto.
      destruct IH as (G2 & J1 & J2 & J3 & J4 & J6). cbn [ret].
      exists (G1 ++ G2). rewrite app_assoc. ands; auto; try lia.
      * intros q t Hin. apply in_app_or in Hin. destruct Hin as [Hin|Hin].
        -- destruct (I6 q t Hin). lia.
        -- pose proof (J3 q t Hin). lia.
      * intros i Hi. rewrite J4 by lia. apply I7; lia.
      * intros B' M HB Hle Hfit. apply GA_some.
        -- apply I10; [exact HB|lia|]. intros i [[]|Hi].
           rewrite Hfit by (right; lia).
           rewrite overlay_app_r.
           ++ apply overlay_buf. apply J4; lia.
           ++ intros q t Hin. destruct (covers i (q, t)) eqn:Ec; [|reflexivity].
              apply covers_true in Ec. exfalso. pose proof (J3 q t Hin). lia.
        -- cbn [end_pos] in I3. rewrite <- Hend, <- I3. apply J6; [exact HB|lia|]. intros i [[]|Hi]. apply Hfit. right; lia.
    + cbn [grdone] in HD. destruct HD as (D1 & D2 & D4 & D5 & G1 & D6 & D7).
      specialize (IH z1 (G ++ G1) Hxs Hys D6).
      destruct (g_attempt_all R k E m fuel rs z1) as [outs z2|e2 z2| | |]; auto.
      destruct IH as (G2 & J1 & J2 & J3 & J4 & J6). cbn [ret].
      exists (G1 ++ G2). rewrite app_assoc. ands; auto; try lia.
      * intros q t Hin. apply in_app_or in Hin. destruct Hin as [Hin|Hin].
        -- pose proof (D7 q t Hin). lia.
        -- pose proof (J3 q t Hin). lia.
      * intros i Hi. rewrite J4 by lia. apply D5; lia.
      * intros B' M HB Hle Hfit. apply GA_none with (b' := gpos z1); [|lia|].
        -- destruct D1 as [D1|[D1 _]]; [right; exists e; rewrite <- Hend; exact D1|left; exact D1].
        -- apply J6; [exact HB|lia|]. intros i [[]|Hi]. apply Hfit. right; lia.
Qed.

(** A value takes space: nothing was written only if nothing succeeded. *)
Lemma g_attempts_ge M B b rs outs e : Forall (root_in E m fuel) rs ->
  g_attempts k E m I inv M B b rs outs e -> b <= e.
Proof.
  intros Hall HA. induction HA as [b|b l a ss rs outs e H1 H2 IH|b l a ss rs outs e b' H1 H2 H3 IH]; [lia| |].
  - inversion Hall as [|? ? Hx Hxs]; subst. destruct Hx as (X1 & X2 & X3 & X4). specialize (IH Hxs).
    pose proof (steps_allocs_end C E m fuel _ _ _ _ X4 (push_end b l 1) (push_end_VA _ _ _)) as Hend.
    pose proof (end_pos_ge C (push_end b l 1) (flat_map (step_allocs E) ss)).
    pose proof (push_end_ge C b l 1). pose proof (push_start_ge C b l (proj1 X1)). lia.
  - inversion Hall as [|? ? Hx Hxs]; subst. specialize (IH Hxs). lia.
Qed.

Lemma g_attempts_nothing M B M' B' b rs outs e : Forall (root_in E m fuel) rs ->
  g_attempts k E m I inv M B b rs outs e -> e = 0 -> g_attempts k E m I inv M' B' b rs outs e.
Proof.
  intros Hall HA. induction HA as [b|b l a ss rs outs e H1 H2 IH|b l a ss rs outs e b' H1 H2 H3 IH]; intros He; [constructor| |].
  - exfalso. inversion Hall as [|? ? Hx Hxs]; subst. destruct Hx as (X1 & X2 & X3 & X4).
    pose proof (g_attempts_ge _ _ _ _ _ _ Hxs H2).
    pose proof (steps_allocs_end C E m fuel _ _ _ _ X4 (push_end b l 1) (push_end_VA _ _ _)) as Hend.
    pose proof (end_pos_ge C (push_end b l 1) (flat_map (step_allocs E) ss)).
    pose proof (push_end_ge C b l 1). lia.
  - inversion Hall as [|? ? Hx Hxs]; subst. eapply GA_none; eauto.
Qed.

Theorem g_session_spec rs s :
  GenSpec.ready I inv s -> Forall (root_in E m fuel) rs -> Forall (root_proper empties) rs ->
  match g_session R k E m fuel rs (g_from_storage s) with
  | Ok outs z =>
      let s' := gz_st z in
      let B := g_final_base R k s' in
      GenSpec.ready I inv s' /\ i_pos I s <= i_pos I s' /\
      (forall i, i < i_pos I s -> contents s' i = contents s i) /\
      g_attempts k E m I inv (g_out_mem I contents B s') B (i_pos I s) rs outs (i_pos I s')
  | Abort => True
  | _ => False
  end.
Proof.
  intros Hok Hall Hpl. cfg.
  pose proof (g_from_storage_inv R inv contents k s Hok) as Hz.
  pose proof (g_attempts_done rs (g_from_storage s) [] Hall Hpl Hz) as HV.
  unfold g_session, bind.
  destruct (g_attempt_all R k E m fuel rs (g_from_storage s)) as [ps z1|e z1| | |]; auto.
  cbn [app] in HV. destruct HV as (G & V1 & V2 & V5 & V6 & V9).
  cbn [g_from_storage gz_st] in *.
  pose proof (ginv_ok R inv contents _ _ _ V1) as Hok1.
  destruct (ready_le R inv contents empties K _ Hok1) as [Hpc Hcm].
  destruct (g_finalize_eq R C inv contents empties K k z1 G HS V1) as (z' & -> & Z1 & Z3 & Z6 & Z7).
  cbn [ret]. cbv zeta. rewrite Z1. ands; auto.
  - intros i Hi. rewrite Z7 by lia. rewrite overlay_none; [apply V6; exact Hi|].
    intros q t Hq. pose proof (V5 q t Hq). unfold covers; cbn. lia.
  - assert (Hb : g_final_base R k (gz_st z') = g_final_base R k (gz_st z1)).
    { unfold g_final_base. destruct k; auto. }
    rewrite Hb. destruct (N.eq_dec (gpos z1) 0) as [Hp0|Hp0].
    + (* nothing was written: the base does not matter *)
      rewrite Hp0 in *. apply (g_attempts_nothing (fun _ => None) 0); auto. apply V9; [apply N.divide_0_r|lia|].
      intros i [[]|Hi]. cbn in Hi. lia.
    + apply V9.
      * unfold g_final_base. clear - HS Hok1 Hpc Hp0 C. destruct k; try apply N.divide_0_r.
        destruct HS as (_ & Hct & _). destruct (Hct (gz_st z1) (proj1 Hok1) ltac:(lia)) as (P1 & P2 & P3).
        eapply N.divide_trans; [apply (c_MVA_dvd_SA C)|exact P2].
      * unfold g_final_base. destruct k; try lia.
        destruct HS as (_ & Hct & _). destruct (Hct (gz_st z1) (proj1 Hok1) ltac:(lia)) as (P1 & P2 & P3). lia.
      * intros i [[]|Hi]. unfold g_out_mem. rewrite Z1. cbn [gz_st g_from_storage] in Hi.
        set (b := g_final_base R k (gz_st z1)) in *.
        rewrite (proj2 (N.leb_le b (b + i))) by lia.
        rewrite (proj2 (N.ltb_lt (b + i) _)) by lia.
        cbn [andb]. replace (b + i - b) with i by lia. apply Z7. lia.
Qed.
End GenSession.
