(** * ClientFacts: the output of any hand-written Serialize implementation. *)
From Verif Require Import Base Types Storage Serializer Serialize Spec ArithFacts StorageFacts StorageHist Frame MemFacts TypeFacts
  SerFacts SerMain ZstPush SerValue UserPanic SerRoot Moves StorageProps SerProps Client ClientSpec.
From Coq Require Import ZifyBool ZifyNat ZifyN.
Local Open Scope N_scope.

Section ClientFacts.
Context {P : Params}.
Notation cap w := (s_cap (sw_s w)).
Notation pos w := (s_pos (sw_s w)).
Notation ptr w := (s_ptr (sw_s w)).
Notation buf w := (s_buf (sw_s w)).
Notation zpos z := (s_pos (sw_s (z_sw z))).
Notation zbuf z := (s_buf (sw_s (z_sw z))).
Notation zcap z := (s_cap (sw_s (z_sw z))).
Notation zptr z := (s_ptr (sw_s (z_sw z))).

Hypothesis C : cfg_ok.
Hypothesis HA : alloc_ok.
Variable E : tenv.
Hypothesis HE : wf_env E.
Variable k : kind.
Variable m : mem.
Variable fuel : nat.

Ltac cfg :=
  pose proof (c_SA_pos C); pose proof (c_MVA_pos C); pose proof (c_VA_pos C);
  pose proof (c_VA_MVA C); pose proof (c_MVA_SA C); pose proof (c_MAXC C);
  pose proof (c_MVA_le_MAXC C); pose proof (c_sum C); pose proof (c_umod C);
  pose proof (c_SA_lt_imax C); pose proof (pW_vals (c_machine C)).

(** The positions a call changes in the copy, at [p], of the enclosing value. *)
Definition tF (p : N) (s : step) (i : N) : Prop :=
  match touch E s with Some (off, n) => seg (p + off) n i | None => False end.
Definition tFs (p : N) (ss : list step) (i : N) : Prop := exists s, In s ss /\ tF p s i.

Lemma tF_touched p s i : tF p s i <-> p <= i /\ touched E s (i - p).
Proof.
  unfold tF, touched. destruct (touch E s) as [[off n]|]; unfold seg; [|tauto]. lia.
Qed.

Lemma tF_dec p s i : tF p s i \/ ~ tF p s i.
Proof. unfold tF. destruct (touch E s) as [[off n]|]; [unfold seg; lia|auto]. Qed.

Lemma tFs_dec p ss i : tFs p ss i \/ ~ tFs p ss i.
Proof.
  induction ss as [|s ss IH].
  - right. intros (s & [] & _).
  - destruct (tF_dec p s i) as [Hs|Hs]; [left; exists s; split; [left; reflexivity|exact Hs]|].
    destruct IH as [(s' & Hin & Hs')|IH].
    + left. exists s'. split; [right; exact Hin|exact Hs'].
    + right. intros (s' & [<-|Hin] & Hs'); [tauto|]. apply IH. exists s'. auto.
Qed.

(** The allocations written by the calls, in order, storage calls being marked. *)
Definition op_allocs (o : sop) : list (layout * N) :=
  busy :: match o with
          | OPush l _ => if l_size l =? 0 then [] else [(l, 1)]
          | OPushSlice l n _ => if l_size l =? 0 then [] else [(l, n)]
          | OPushBytes n _ => [(u8_layout, n)]
          | OPushEmpty l => [(l, 1)]
          | OPushEmptySlice l n => [(l, n)]
          | OAlignFor l => [(mkLayout 0 (l_align l), 0)]
          | _ => []
          end.
Fixpoint step_allocs (s : step) : list (layout * N) :=
  match s with
  | SPush _ l _ n body => slice_list l n ++ flat_map step_allocs body
  | SPushPlain _ l _ n | SRaw l _ n => slice_list l n
  | SOver _ _ _ | SPanic => []
  | SField _ t v => owned E t v
  | SStore o => op_allocs o
  end.

Lemma op_allocs_end p o : (VA | p) -> op_valid o -> o <> OClear -> end_pos p (op_allocs o) = op_next p o.
Proof.
  intros Hp Hv Hc. cfg. unfold op_allocs. cbn [end_pos].
  assert (Hb : push_end p (fst busy) (snd busy) = p).
  { unfold push_end, push_start, busy. cbn [fst snd l_align l_size]. rewrite N.max_r by lia.
    rewrite (round_up_id p VA) by (auto; lia). rewrite N.mul_0_l, N.add_0_r. apply round_up_id; auto; lia. }
  unfold busy in *. cbn [fst snd] in Hb. rewrite Hb.
  destruct o; cbn [end_pos op_next]; try reflexivity; try (destruct (l_size l =? 0); reflexivity).
  - unfold push_end. cbn [l_size]. rewrite N.mul_0_l, N.add_0_r.
    change (push_start p (mkLayout 0 (l_align l))) with (push_start p l).
    apply round_up_id; [lia|]. apply push_start_VA; [exact C|apply Hv].
  - congruence.
Qed.

Lemma end_pos_VA ps : forall p, (VA | p) -> (VA | end_pos p ps).
Proof.
  induction ps as [|[l n] ps IH]; intros p Hp; cbn [end_pos]; auto. apply IH. apply push_end_VA.
Qed.

(** A storage call. *)
Lemma store_done z G o :
  zinv k z G -> 0 < zpos z -> op_valid o -> no_overflow o -> o <> OClear ->
  done k z G (fun _ => False) (op_allocs o)
    (fun B M => forall l n data, op_data o = Some (l, n, data) ->
       forall i, i < l_size l * n -> M (B + (push_start (zpos z) l + i)) = data i)
    (store_call o z).
Proof.
  intros Hz Hp0 Hv Hn Hc. cfg. pose proof (zinv_ok k z G Hz) as Hok.
  pose proof (run_op_spec C HA (z_sw z) o Hok Hv) as H1'.
  pose proof (run_op_keep C HA (z_sw z) o Hok Hv Hc) as H2'.
  pose proof (run_op_pos C HA (z_sw z) o) as H3'.
  assert (Hd : forall r w', run_op o (z_sw z) = Ok r w' -> forall l n data, op_data o = Some (l, n, data) ->
    0 < l_size l * n -> push_start (zpos z) l + l_size l * n <= s_pos (sw_s w') /\
    forall i, i < l_size l * n -> s_buf (sw_s w') (push_start (zpos z) l + i) = data i).
  { intros r w' Hr l n data Hdat Hnz.
    assert (Hps : exists p, good_layout l /\ l_size l * n <= imax /\ push_slice l n data (z_sw z) = Ok p w').
    { destruct o; inversion Hdat; subst; cbn [run_op some_pos] in Hr; unfold some_pos, bind, ret in Hr.
      - unfold push in Hr. destruct (push_slice l 1 data (z_sw z)) as [p w1| | | |] eqn:Ep; inversion Hr; subst.
        exists p. cbn in Hv. ands; auto. rewrite N.mul_1_r. apply Hv.
      - destruct (push_slice l n data (z_sw z)) as [p w1| | | |] eqn:Ep; inversion Hr; subst.
        exists p. cbn in Hv. ands; auto; tauto.
      - unfold push_bytes in Hr. destruct (push_slice u8_layout n data (z_sw z)) as [p w1| | | |] eqn:Ep; inversion Hr; subst.
        exists p. cbn in Hv. ands; auto; [apply (u8_good C)|cbn [u8_layout l_size]; lia]. }
    destruct Hps as (p & Hl & Hle & Hps).
    assert (Hsz : 0 < l_size l) by nia. assert (Hnn : 0 < n) by nia.
    pose proof (push_slice_spec C HA (z_sw z) l n data Hok Hl Hsz Hle (or_introl Hnn)) as Hs. rewrite Hps in Hs.
    destruct Hs as (-> & S2 & _ & _ & _ & S6 & _).
    pose proof (push_end_ge C (zpos z) l n). split; [lia|exact S6]. }
  unfold store_call. destruct (run_op o (z_sw z)) as [r w'|e w'| | |] eqn:Er; try contradiction; auto.
  - destruct H1' as (Hok' & Hx & _). destruct H2' as (K1 & K2).
    destruct (H3' _ _ Hok Hv Hn eq_refl) as [_ Hpos].
    cbn. exists []. rewrite app_nil_r. cbn [z_sw z_map z_ptrs].
    pose proof (ok_pos_le _ Hok'). pose proof (ok_cap_le _ Hok').
    ands; auto; try lia.
    + apply zinv_push; auto.
    + rewrite Hpos. symmetry. apply op_allocs_end; auto. apply Hok.
    + split; intros Hb; exfalso; apply Hb; left; reflexivity.
    + intros B M HB Hle Hfit l n data Hdat i Hi.
      destruct (Hd _ _ eq_refl l n data Hdat ltac:(lia)) as [D1 D2].
      rewrite Hfit.
      2:{ right. cbn [z_sw]. assert (Hst : zpos z <= push_start (zpos z) l).
          { apply (push_start_ge C). destruct o; inversion Hdat; subst; try apply Hv. apply pow2_1. }
          lia. }
      cbn [z_sw]. rewrite overlay_none; [apply D2; exact Hi|].
      intros q t Hin. destruct Hz as (_ & Hzq & _). destruct (Hzq q t Hin) as (_ & Hz2 & _).
      assert (Hst : zpos z <= push_start (zpos z) l).
      { apply (push_start_ge C). destruct o; inversion Hdat; subst; try apply Hv. apply pow2_1. }
      destruct (covers (push_start (zpos z) l + i) (q, t)) eqn:Ec; auto. apply covers_true in Ec. lia.
  - destruct H1' as (Hok' & Hx & _). destruct H2' as (K1 & K2). cbn. ands; auto.
    + left; reflexivity.
    + exists []. rewrite app_nil_r. split; [apply zinv_push; auto|intros q t []].
  - split; [exact H1'|]. intros Hb. exfalso. apply Hb. left. reflexivity.
  - pose proof (ok_pos_le _ Hok). destruct o; cbn in H1'; try contradiction. lia.
Qed.

(** Pushing a slice for which no pointer is recorded. *)
Lemma raw_done z G l tp n :
  zinv k z G -> 0 < zpos z -> slice_ok l tp n ->
  done k z G (fun _ => False) (slice_list l n)
    (fun B M => same_bytes m M B (slice_pos (zpos z) l) tp 0 (l_size l * n))
    (push_raw_slice (slice_at m l tp n) z).
Proof.
  intros Hz Hp0 (Hl & Hle & Hum). cfg.
  pose proof (zinv_ok k z G Hz) as Hok.
  unfold slice_list, slice_pos. destruct (N.eqb_spec (l_size l) 0) as [E0|E0].
  { unfold push_raw_slice, slice_at; cbn [sl_lay sl_len sl_data].
    rewrite (lift_eq _ z 0 (z_sw z)) by (apply push_slice_zst; exact E0).
    replace (mkZ (z_sw z) (z_map z) (z_ptrs z)) with z by (destruct z; reflexivity).
    cbn [done]. exists []. rewrite app_nil_r. cbn [end_pos].
    pose proof (ok_pos_le _ Hok). pose proof (ok_cap_le _ Hok).
    ands; auto; try lia.
    - apply quietly_same; auto; intros i [].
    - apply extends_refl.
    - intros B M _ _ _ i Hi1 Hi2. rewrite E0 in Hi2. lia. }
  assert (Hsz : 0 < l_size l) by lia.
  assert (Hn : 0 < n \/ 0 < zcap z) by (right; pose proof (ok_pos_le _ Hok); lia).
  pose proof (push_slice_spec C HA (z_sw z) l n (mem_from m tp) Hok Hl Hsz Hle ltac:(tauto)) as Hps.
  pose proof (push_frame C HA (z_sw z) l n (mem_from m tp) Hok Hl Hsz Hn Hle) as Hfr.
  assert (Hst : zpos z <= push_start (zpos z) l) by (apply (push_start_ge C), Hl).
  pose proof (push_end_ge C (zpos z) l n) as Hend.
  unfold push_raw_slice, slice_at; cbn [sl_lay sl_len sl_data]. unfold lift.
  destruct (push_slice l n (mem_from m tp) (z_sw z)) as [p1 w1|e w1| | |] eqn:Ep; try contradiction; auto.
  - destruct Hps as (-> & Hpos1 & Hok1 & Hmax & Hb1 & Hd1 & Hext & Hq).
    cbn. exists []. rewrite app_nil_r. cbn [z_sw z_map z_ptrs]. ands; auto; try lia.
    + apply zinv_push; auto. lia.
    + apply (push_quietly C HA z l n _ _ w1 _ _ _ Hok Hl Hsz Hn Hle Ep).
    + intros B M HB Hb Hfit i Hi1 Hi2.
      rewrite Hfit.
      2:{ right. cbn [z_sw]. lia. }
      cbn [z_sw]. rewrite overlay_none.
      * rewrite Hd1 by lia. reflexivity.
      * intros q t Hin. destruct Hz as (_ & Hzq & _). destruct (Hzq q t Hin) as (_ & Hz2 & _).
        destruct (covers (push_start (zpos z) l + i) (q, t)) eqn:Ec; auto. apply covers_true in Ec. lia.
  - destruct Hps as (-> & -> & Hok1 & Hmax). cbn. ands; auto; [|apply extends_same; reflexivity|].
    { right. split; [reflexivity|]. split; [cbn [end_pos]; lia|].
      intros _. cbn [fpushes]. rewrite (proj2 Hfr). reflexivity. }
    exists []. rewrite app_nil_r. split; [apply zinv_push; auto|intros q t []].
  - split; [exact Hps|]. intros _. cbn [fpushes]. rewrite Hfr. reflexivity.
Qed.

Lemma run_push a off l tp n body :
  run_step k E m fuel a (SPush off l tp n body) =
  (ad <- addr_from_ref_offset k a off ;;
   push_and_process_slice k (slice_at m l tp n) ad (run_steps k E m fuel tp body) ;;; ret tt).
Proof.
  cbn [run_step]. 
  assert (He : forall ss, (fix go (ss : list step) : M zs unit :=
            match ss with [] => ret tt | s :: ss' => run_step k E m fuel tp s ;;; go ss' end) ss
          = run_steps k E m fuel tp ss).
  { induction ss as [|s ss IH]; cbn; [reflexivity|]. rewrite IH. reflexivity. }
  rewrite He. reflexivity.
Qed.

Lemma addr_bind {A} a off (f : addr -> M zs A) z :
  a + off < umod -> bind (addr_from_ref_offset k a off) f z = f (addr_of k (a + off)) z.
Proof.
  intros Hlt. unfold addr_from_ref_offset, addr_of, bind.
  destruct (tracking k); [|reflexivity].
  rewrite add_u_ok by exact Hlt. reflexivity.
Qed.

Definition enclosing (size al a p : N) : Prop :=
  pow2 al /\ al <= MVA /\ (al | p) /\ a + size <= umod.

Scheme step_ok_mut := Induction for step_ok Sort Prop
with steps_ok_mut := Induction for steps_ok Sort Prop.

Lemma slice_pos_sized cur l : l_size l <> 0 -> slice_pos cur l = push_start cur l.
Proof. intros H. unfold slice_pos. rewrite (proj2 (N.eqb_neq _ _) H). reflexivity. Qed.
Lemma slice_end_sized cur l n : l_size l <> 0 -> slice_end cur l n = push_end cur l n.
Proof. intros H. unfold slice_end. rewrite (proj2 (N.eqb_neq _ _) H). reflexivity. Qed.

Lemma slice_list_end cur l n : end_pos cur (slice_list l n) = slice_end cur l n.
Proof. unfold slice_list, slice_end. destruct (l_size l =? 0); reflexivity. Qed.
Lemma slice_end_VA cur l n : (VA | cur) -> (VA | slice_end cur l n).
Proof. intros H. unfold slice_end. destruct (l_size l =? 0); [exact H|apply push_end_VA]. Qed.

Lemma steps_allocs_end : forall size al a ss, steps_ok E m fuel size al a ss ->
  forall cur, (VA | cur) -> end_pos cur (flat_map step_allocs ss) = steps_end E cur ss.
Proof.
  apply (steps_ok_mut P E m fuel
    (fun size al a s _ => forall cur, (VA | cur) -> end_pos cur (step_allocs s) = step_end E cur s)
    (fun size al a ss _ => forall cur, (VA | cur) -> end_pos cur (flat_map step_allocs ss) = steps_end E cur ss)).
  - intros size al a off l tp n body _ _ _ _ _ IH cur Hc. cbn [step_allocs step_end].
    rewrite end_pos_app, slice_list_end. apply IH. apply slice_end_VA. exact Hc.
  - intros. apply slice_list_end.
  - intros. apply slice_list_end.
  - reflexivity.
  - reflexivity.
  - intros size al a o Hv _ Hcl cur Hc. apply op_allocs_end; auto.
  - reflexivity.
  - reflexivity.
  - intros size al a s ss _ IH1 _ _ IH2 cur Hc. cbn [flat_map]. rewrite end_pos_app.
    unfold steps_end. cbn [fold_left]. rewrite <- (IH1 cur Hc). apply IH2. apply end_pos_VA. exact Hc.
Qed.

Lemma step_allocs_end size al a s : step_ok E m fuel size al a s ->
  forall cur, (VA | cur) -> end_pos cur (step_allocs s) = step_end E cur s.
Proof.
  intros Hs cur Hc.
  pose proof (steps_allocs_end size al a [s] (OKS_cons _ _ _ _ _ _ s [] Hs (fun s' i f => match f with end) (OKS_nil _ _ _ _ _ _)) cur Hc) as Hx.
  cbn [flat_map] in Hx. rewrite app_nil_r in Hx. exact Hx.
Qed.

Definition step_goal (size al a : N) (s : step) : Prop :=
  forall z G p, 0 < zpos z -> enclosing size al a p -> ready k z G (tF p s) m p a ->
  done k z G (tF p s) (step_allocs s) (fun B M => image k E m M B p a (zpos z) s) (run_step k E m fuel a s z).
Definition steps_goal (size al a : N) (ss : list step) : Prop :=
  forall z G p, 0 < zpos z -> enclosing size al a p -> ready k z G (tFs p ss) m p a ->
  done k z G (tFs p ss) (flat_map step_allocs ss) (fun B M => images k E m M B p a (zpos z) ss)
    (run_steps k E m fuel a ss z).

(** A whole region: the bytes no call is for are kept. *)
Lemma region_done size al a ss z G p :
  0 < zpos z -> steps_goal size al a ss -> enclosing size al a p ->
  (forall s i, In s ss -> touched E s i -> i < size) ->
  ready k z G (seg p size) m p a ->
  done k z G (seg p size) (flat_map step_allocs ss)
    (fun B M => region k E m M B p a size (zpos z) ss) (run_steps k E m fuel a ss z).
Proof.
  intros H0p Hs He Hin Hr. cfg.
  assert (Hsub : forall i, tFs p ss i -> seg p size i).
  { intros i (s & Hi & Ht). apply tF_touched in Ht. destruct Ht as [Hp Ht].
    pose proof (Hin s _ Hi Ht). unfold seg. lia. }
  eapply (done_eqF k z G (fun i => tFs p ss i \/ (seg p size i /\ ~ tFs p ss i))).
  3:{ eapply (done_frame C k z G (tFs p ss) (fun i => seg p size i /\ ~ tFs p ss i)).
      - eapply ready_sub; [exact Hr|]. intros i [Hi|[Hi _]]; auto.
      - intros i Hi [_ Hn]. auto.
      - apply (Hs z G p H0p He). eapply ready_sub; [exact Hr|exact Hsub]. }
  - intros i. destruct (tFs_dec p ss i); split; intros; try tauto. destruct H11; [auto|tauto].
  - intros B M HB [HI HC]. constructor; [|exact HI].
    intros i Hi Hno. specialize (HC (p + i)). rewrite HC.
    + f_equal. lia.
    + split; [unfold seg; lia|]. intros (s & Hs1 & Hs2). apply tF_touched in Hs2.
      destruct Hs2 as [_ Hs2]. replace (p + i - p) with i in Hs2 by lia. apply (Hno s Hs1 Hs2).
Qed.

Lemma touched_inside size al a ss : steps_ok E m fuel size al a ss ->
  forall s i, In s ss -> touched E s i -> i < size.
Proof.
  intros H. induction H as [|size al a s ss Hs Hd H IH]; intros s' i; [intros []|].
  intros [<-|Hi] Ht; [|eauto].
  unfold touched in Ht. destruct Hs; cbn [touch] in Ht; first [contradiction | lia].
Qed.

Lemma align_pos l al p off : pow2 (l_align l) -> (l_align l | al) -> (al | p) -> (l_align l | off) ->
  (l_align l | p + off).
Proof. intros _ H1 H2 H3. apply N.divide_add_r; auto. exact (N.divide_trans _ _ _ H1 H2). Qed.

Lemma word_fits al : pow2 al -> al <= MVA -> (pW | al) -> pW <= MVA.
Proof.
  intros Ha Hle Hd. pose proof (pow2_pos al Ha). destruct Hd as [x ->].
  assert (x <> 0) by nia. nia.
Qed.

Lemma done_imp_end z G F ps (R R' : N -> mem -> Prop) {A} (o : outcome zs A) :
  done k z G F ps R o ->
  (forall B M, (MVA | B) -> B + end_pos (zpos z) ps < umod -> R B M -> R' B M) -> done k z G F ps R' o.
Proof.
  intros H HR. destruct o as [a z'|e z'| | |]; auto; cbn in *.
  destruct H as (G' & H1 & H2 & H3 & H4 & H5 & H6 & H7 & H8 & H9 & H10).
  exists G'. ands; auto. intros. apply HR; auto. lia.
Qed.

Lemma slice_end_ge cur l n : cur <= slice_end cur l n.
Proof. unfold slice_end. destruct (l_size l =? 0); [lia|apply (push_end_ge_pos C)]. Qed.
Lemma slice_pos_align cur l : pow2 (l_align l) -> (l_align l | slice_pos cur l).
Proof. intros H. unfold slice_pos. destruct (l_size l =? 0); [apply N.divide_0_r|apply (push_start_align C), H]. Qed.

Lemma push_done size al a off l tp n z G p process psc Rc :
  enclosing size al a p -> off + pW <= size -> (pW | off) -> (pW | al) -> slice_ok l tp n ->
  ready k z G (seg (p + off) pW) m p a ->
  (forall z1 G1, zpos z1 = slice_end (zpos z) l n ->
     ready k z1 G1 (seg (slice_pos (zpos z) l) (l_size l * n)) m (slice_pos (zpos z) l) tp ->
     done k z1 G1 (seg (slice_pos (zpos z) l) (l_size l * n)) psc Rc (process z1)) ->
  done k z G (seg (p + off) pW) (slice_list l n ++ psc)
    (fun B M => points k m M B p a off l n (slice_pos (zpos z) l) /\ Rc B M)
    (push_and_process_slice k (slice_at m l tp n) (addr_of k (a + off)) process z).
Proof.
  intros (Ep & El & Ed & Eu) Hoff Hpo Hpa (Hl & Hle & Hum) Hr Hproc. cfg.
  assert (Hr' : ready k z G (seg (p + off) pW) m (p + off) (a + off)) by (apply ready_shift; [exact Hr|unfold seg; lia]).
  assert (Hmv : pW <= MVA) by (eapply word_fits; eauto).
  assert (Hal : (pW | p + off)) by (apply N.divide_add_r; auto; eapply N.divide_trans; eassumption).
  unfold slice_list, slice_pos, slice_end in *. destruct (N.eqb_spec (l_size l) 0) as [E0|E0].
  { eapply done_imp_end.
    - apply (zst_done C k z G m l n (a + off) (p + off) tp process (seg 0 (l_size l * n)) psc Rc); auto.
      intros i. unfold seg. rewrite E0. lia.
    - cbn beta. intros B M HB HBe (H1' & H2' & H3'). split; [|exact H3'].
      cbn [app] in HBe. pose proof (end_pos_ge C (zpos z) psc).
      unfold points. destruct (tracking k).
      + rewrite N.add_0_r. split.
        * apply read_word_src; [lia|]. exact (H1' eq_refl).
        * intros HB0. specialize (HB0 E0). unfold valid_ref. ands; auto; [|rewrite E0; lia].
          eapply divide_trans; [|exact HB]. apply pow2_divide; [apply Hl|apply (c_MVA C)|apply Hl].
      + specialize (H2' eq_refl). intros i Hi1 Hi2. specialize (H2' (p + i)).
        rewrite H2' by (unfold seg; lia). f_equal. lia. }
  eapply done_imp_end.
  - eapply (alloc_done C HA k z G m l n (a + off) (p + off) tp process psc Rc); auto. lia.
  - cbn beta. intros B M HB HBe (H1' & H2' & H3'). split; [|exact H3'].
    cbn [app end_pos] in HBe. pose proof (end_pos_ge C (push_end (zpos z) l n) psc). pose proof (push_end_ge C (zpos z) l n).
    unfold points. destruct (tracking k).
    + destruct (H1' eq_refl) as [W1 W2]. split; [|intros _; exact W2].
      apply read_word_src; [|exact W1]. destruct W2 as (_ & _ & W3).
      lia.
    + specialize (H2' eq_refl). intros i Hi1 Hi2. specialize (H2' (p + i)).
      rewrite H2' by (unfold seg; lia). f_equal. lia.
Qed.


Lemma overwrite_with_done p a off l data z G size al :
  enclosing size al a p ->
  good_layout l -> 0 < l_size l -> off + l_size l <= size -> (l_align l | off) -> (l_align l | al) ->
  ready k z G (seg (p + off) (l_size l)) m p a ->
  done k z G (seg (p + off) (l_size l)) []
    (fun B M => image k E m M B p a (zpos z) (SOver off l data))
    (overwrite_with k (ad <- addr_from_ref_offset k a off ;; overwrite k ad l data) z).
Proof.
  intros (Ep & El & Ed & Eu) Hl Hsz Hoff Ho Ha Hr. cfg.
  assert (Hr' : ready k z G (seg (p + off) (l_size l)) m (p + off) (a + off)).
  { apply ready_shift; [exact Hr|]. unfold seg; lia. }
  assert (Hret : k <> Complete -> done k z G (seg (p + off) (l_size l)) []
    (fun B M => image k E m M B p a (zpos z) (SOver off l data)) (ret tt z)).
  { intros Hk. eapply done_ret; [exact Hr|]. intros B M Hc. constructor; [intros; contradiction|].
    intros _ i Hi1 Hi2. rewrite Hc by (unfold seg; lia). f_equal. lia. }
  destruct k; cbn [overwrite_with]; try (apply Hret; discriminate).
  unfold addr_from_ref_offset; cbn [tracking].
  assert (Hb : bind (bind (add_u a off) (fun x => ret (ATrack x))) (fun ad => overwrite Complete ad l data) z
               = overwrite Complete (ATrack (a + off)) l data z).
  { unfold bind. rewrite add_u_ok by lia. reflexivity. }
  first [rewrite Hb | idtac].
  eapply done_imp.
  - eapply (overwrite_done C z G m l data (a + off) (p + off)); auto.
    eapply align_pos; eauto. apply Hl.
  - cbn beta. intros B M _ _ Hd. constructor; [|intros X; congruence].
    intros _ i Hi. rewrite <- (Hd i Hi). f_equal. lia.
Qed.

Lemma all_goals : forall size al a ss, steps_ok E m fuel size al a ss -> steps_goal size al a ss.
Proof.
  cfg.
  apply (steps_ok_mut P E m fuel (fun size al a s _ => step_goal size al a s)
             (fun size al a ss _ => steps_goal size al a ss)).
  - (* push and process *)
    intros size al a off l tp n body Hoff Hpo Hpa Hsl Hb IH z G p H0p He Hr.
    rewrite run_push. destruct He as (Ep & El & Ed & Eu).
    rewrite addr_bind by lia. apply done_void.
    change (tF p (SPush off l tp n body)) with (seg (p + off) pW) in *.
    eapply done_imp.
    + cbn [step_allocs]. 
      eapply (push_done size al a off l tp n z G p (run_steps k E m fuel tp body) _
                (fun B M => region k E m M B (slice_pos (zpos z) l) tp (l_size l * n) (slice_end (zpos z) l n) body));
        try eassumption.
      { unfold enclosing; auto. }
      intros z1 G1 Hz1 Hr1. rewrite <- Hz1.
      eapply region_done; [rewrite Hz1; pose proof (slice_end_ge (zpos z) l n); lia|exact IH| |eapply touched_inside; eassumption|exact Hr1].
      destruct Hsl as (Hl & _ & Hum). unfold enclosing. ands; auto; try apply Hl.
      apply slice_pos_align, Hl.
    + cbn beta. intros B M _ _ [H1' H2']. constructor; assumption.
  - (* plain push *)
    intros size al a off l tp n Hoff Hpo Hpa Hsl z G p H0p He Hr.
    cbn [run_step]. pose proof He as (Ep & El & Ed & Eu).
    rewrite addr_bind by lia. apply done_void.
    change (tF p (SPushPlain off l tp n)) with (seg (p + off) pW) in *.
    rewrite ser_push_slice_eq.
    eapply done_imp.
    + cbn [step_allocs]. rewrite <- (app_nil_r (slice_list l n)).
      eapply (push_done size al a off l tp n z G p (ret tt) []
                (fun B M => same_bytes m M B (slice_pos (zpos z) l) tp 0 (l_size l * n))); try eassumption.
      intros z1 G1 Hz1 Hr1. eapply done_ret; [exact Hr1|].
      intros B M Hc i Hi1 Hi2. rewrite Hc by (unfold seg; lia). f_equal. lia.
    + cbn beta. intros B M _ _ [H1' H2']. constructor; assumption.
  - (* raw push *)
    intros size al a l tp n Hsl z G p H0p He Hr. cbn [run_step]. apply done_void.
    cbn [step_allocs]. eapply done_imp.
    + eapply done_eqF; [|intros B M _ X; exact X|apply raw_done; [apply Hr|exact H0p|exact Hsl]].
      intros i. cbn. tauto.
    + cbn beta. intros B M _ _ Hs. constructor. exact Hs.
  - (* overwrite *)
    intros size al a off l data Hl Hsz Hoff Ho Ha z G p H0p He Hr.
    cbn [run_step step_allocs].
    eapply overwrite_with_done; eassumption.
  - (* field *)
    intros size al a off t v Hw HR Hf Hoff Ho Ha z G p H0p He Hr.
    cbn [run_step step_allocs]. destruct He as (Ep & El & Ed & Eu).
    change (tF p (SField off t v)) with (seg (p + off) (size_of E t)) in *.
    eapply done_imp.
    + eapply (value_done C HA E HE k m any_header any_header (transfers_any k) t (a + off) v HR Hw fuel z G (p + off) Hf).
      * apply ready_shift; [exact Hr|unfold seg; lia].
      * apply N.divide_add_r; auto. eapply N.divide_trans; eassumption.
      * lia.
    + cbn beta. intros B M _ _ (V1 & V2 & V3). constructor; auto.
      intros Hk i Hi1 Hi2. rewrite (V2 Hk) by (unfold seg; lia). f_equal. lia.
  - (* a storage call *)
    intros size al a o Hv Hn Hc z G p H0p He Hr. cbn [run_step step_allocs]. eapply done_imp.
    + eapply done_eqF; [|intros B M _ X; exact X|apply store_done; auto; apply Hr].
      intros i. cbn. tauto.
    + cbn beta. intros B M _ _ Hs. constructor. exact Hs.
  - (* the implementation panics *)
    intros size al a z G p H0p He Hr. cbn [run_step]. destruct Hr as (Hz & _). cbn. pose proof (zinv_ok _ _ _ Hz). ands; auto; try lia.
    + left; reflexivity.
    + apply extends_same; reflexivity.
    + exists []. rewrite app_nil_r. split; [exact Hz|intros q t []].
  - (* no more calls *)
    intros size al a z G p H0p He Hr. cbn [run_steps flat_map].
    eapply done_ret; [exact Hr|]. intros B M _. constructor.
  - (* a call, then the others *)
    intros size al a s ss Hs IH1 Hd Hss IH2 z G p H0p He Hr.
    cbn [run_steps flat_map].
    eapply (done_eqF k z G (fun i => tF p s i \/ tFs p ss i) _ _ 
              (fun B M => image k E m M B p a (zpos z) s /\
                 images k E m M B p a (step_end E (zpos z) s) ss)).
    + intros i. split.
      * intros [Hi|(s' & Hin & Hi)]; [exists s|exists s']; split; auto; [left; reflexivity|right; exact Hin].
      * intros (s' & [<-|Hin] & Hi); [left; exact Hi|right; exists s'; auto].
    + intros B M _ [X1 X2]. constructor; assumption.
    + eapply (done_seq C k z G (tF p s) (tFs p ss) _ _ _ _ m p a).
      * eapply ready_sub; [exact Hr|]. intros i [Hi|(s' & Hin & Hi)];
          [exists s|exists s']; split; auto; [left; reflexivity|right; exact Hin].
      * intros i Hi (s' & Hin & Hi'). apply tF_touched in Hi, Hi'.
        apply (Hd s' (i - p) Hin); tauto.
      * apply IH1; [exact H0p|exact He|]. eapply ready_sub; [exact Hr|].
        intros i Hi. exists s. split; [left; reflexivity|exact Hi].
      * intros x z1 G1 _ Hr1 _ Hp1. rewrite <- (step_allocs_end _ _ _ _ Hs) by (apply (zinv_ok k z G), Hr).
        pose proof (end_pos_ge C (zpos z) (step_allocs s)).
        rewrite <- Hp1. apply IH2; auto. lia.
Qed.

(** ** The root *)
Lemma root_general l a (process : M zs unit) ps (R : N -> mem -> Prop) z G :
  good_layout l -> 0 < l_size l ->
  let st := push_start (zpos z) l in
  zinv k z G ->
  (forall z1, zpos z1 = push_end (zpos z) l 1 -> ready k z1 G (seg st (l_size l)) m st a ->
     done k z1 G (seg st (l_size l)) ps R (process z1)) ->
  rdone k z G ((l, 1) :: ps) st R (serialize_value_with k (slice_at m l a 1) process z).
Proof.
  intros Hg Hnz st Hz Hproc. cfg.
  pose proof (zinv_ok _ _ _ Hz) as Hok.
  pose proof (push_slice_spec C HA (z_sw z) l 1 (mem_from m a) Hok Hg ltac:(lia)) as HP.
  rewrite N.mul_1_r in HP. specialize (HP ltac:(apply Hg) ltac:(lia)). fold st in HP.
  pose proof (push_frame C HA (z_sw z) l 1 (mem_from m a) Hok Hg ltac:(lia) ltac:(lia)
                ltac:(rewrite N.mul_1_r; apply Hg)) as HF.
  pose proof (push_end_ge C (zpos z) l 1) as Hpe. fold st in Hpe. rewrite N.mul_1_r in Hpe.
  pose proof (push_start_ge C (zpos z) l (proj1 Hg)) as Hst. fold st in Hst.
  assert (Hin := proj1 (proj2 Hz)).
  assert (Hgo : forall z1, storage_ok (z_sw z1) -> zpos z1 = push_end (zpos z) l 1 -> push_end (zpos z) l 1 <= MAXC ->
         (forall i, i < zpos z -> zbuf z1 i = zbuf z i) ->
         (forall i, i < l_size l -> zbuf z1 (st + i) = m (a + i)) ->
         extends (z_sw z) (z_sw z1) -> quietly (fun _ => False) [(l, 1)] z z1 [] -> z_ptrs z1 = z_ptrs z ->
         (tracking k = true -> z_map z1 = mkMap a st) ->
         rdone k z G ((l, 1) :: ps) st R ((process ;;; ret st) z1)).
  { intros z1 D1 D2 D3 D4 D5 D6 D7 D8 D9.
    assert (Hcp : forall i, seg st (l_size l) i -> zpos z <= i /\ i < zpos z1 /\ zbuf z1 i = m (a + (i - st))).
    { intros i Hi. unfold seg in Hi. ands; try lia.
      replace i with (st + (i - st)) at 1 by lia. apply D5. lia. }
    assert (Hz1 : zinv k z1 G).
    { pose proof (zinv_push k z G (z_sw z1) Hz D1 ltac:(lia) D4) as Hzi.
      destruct z1 as [s1 m1 p1]. cbn in *. subst p1.
      apply (zinv_map k (mkZ s1 (z_map z) (z_ptrs z)) G m1 Hzi). }
    assert (HD : done k z1 G (seg st (l_size l)) ps R (process z1)).
    { apply Hproc; [exact D2|]. unfold ready. ands; auto.
      - intros i Hi. destruct (Hcp i Hi) as (F1 & F2 & F3). unfold seg in Hi. ands; auto; lia.
      - intros q t' Hq' i Hi1 Hi2 Hs. destruct (Hcp i Hs) as (F1 & _). destruct (Hin q t' Hq'). lia.
      - intros Hk. rewrite (D9 Hk). cbn. lia. }
    unfold bind. destruct (process z1) as [u z2|e z2| | |]; auto.
    3:{ cbn in *. apply (refused_later [(l, 1)] ps z _ (proj1 D7) HD). }
    - cbn in HD. destruct HD as (G' & J1 & J2 & J3 & J4 & J5 & J6 & J7 & J8 & J9 & J10).
      cbn. exists G'. ands; auto; try lia.
      + rewrite J3, D2. reflexivity.
      + intros q t' Hq'. destruct (J6 q t' Hq') as [Hi|Hi]; [|lia].
        destruct (Hcp q (Hi q ltac:(lia) ltac:(lia))) as (F1 & _).
        destruct (Hcp (q + pW - 1) (Hi (q + pW - 1) ltac:(lia) ltac:(lia))) as (_ & F2 & _). lia.
      + intros i Hi. rewrite J7; [apply D4; exact Hi|lia|].
        intros Hs. destruct (Hcp i Hs). lia.
      + change G' with ([] ++ G').
        apply (quietly_app (fun _ => False) (seg st (l_size l)) (fun _ => False) [(l, 1)] ps z z1 z2 [] G' D7 J8); auto.
        * apply ok_pos_le. exact D1.
        * intros i Hi. right. left. fold st. rewrite N.mul_1_r. exact Hi.
        * intros i [].
      + eapply extends_trans; eassumption.
      + intros B M HB Hle Hfit. apply J10; auto.
        intros i Hi. apply Hfit. right.
        destruct Hi as [Hi|Hi]; [destruct (Hcp i Hi); lia|lia].
    - cbn in HD |- *. destruct HD as (B2 & B3 & B4 & B5 & B6 & G' & B7 & B8). ands; auto; try lia.
      + eapply stopped_imp; [exact B2|]. apply (full_later [(l, 1)] ps z _ _ (proj1 D7)). exact D2.
      + eapply extends_trans; eassumption.
      + intros i Hi. rewrite B6; [apply D4; exact Hi|lia|].
        intros Hs. destruct (Hcp i Hs). lia.
      + exists G'. split; [exact B7|]. intros q t' Hq'. destruct (B8 q t' Hq') as [Hi|Hi]; [|lia].
        destruct (Hcp q (Hi q ltac:(lia) ltac:(lia))) as (F1 & _). lia. }
  assert (Hpush : forall (f : N -> M zs N),
      (forall z1, storage_ok (z_sw z1) -> zpos z1 = push_end (zpos z) l 1 -> push_end (zpos z) l 1 <= MAXC ->
         (forall i, i < zpos z -> zbuf z1 i = zbuf z i) ->
         (forall i, i < l_size l -> zbuf z1 (st + i) = m (a + i)) ->
         extends (z_sw z) (z_sw z1) -> quietly (fun _ => False) [(l, 1)] z z1 [] -> z_ptrs z1 = z_ptrs z ->
         rdone k z G ((l, 1) :: ps) st R (f st z1)) ->
      rdone k z G ((l, 1) :: ps) st R (bind (lift (push_slice l 1 (mem_from m a))) f z)).
  { intros f Hcont. unfold bind, lift. unfold z_sw at 1.
      destruct (push_slice l 1 (mem_from m a) (let (z_sw, _, _) := z in z_sw)) as [p w1|e w1| | |] eqn:Ep;
        change (let (z_sw, _, _) := z in z_sw) with (z_sw z) in Ep; rewrite Ep in HP, HF; auto.
      3:{ apply (refused_first [(l, 1)]). split; [exact HP|]. intros _. cbn [fpushes]. rewrite HF. reflexivity. }
      - destruct HP as (-> & P2 & P3 & P4 & P5 & P6 & P7 & _). apply Hcont; auto.
        eapply (push_quietly C HA); try eassumption; try lia; rewrite ?N.mul_1_r; apply Hg.
      - destruct HP as (-> & -> & P3 & P4). cbn. ands; auto.
        + right. split; [reflexivity|]. apply (full_first C [(l, 1)]). split.
          * cbn [end_pos]. lia.
          * intros _. cbn [fpushes]. rewrite (proj2 HF). reflexivity.
        + apply extends_same; reflexivity.
        + exists []. rewrite app_nil_r. split; [|intros q t' []].
          apply (zinv_push k z G (at_pos (z_sw z) st) Hz P3); [exact Hst|reflexivity]. }
  unfold serialize_value_with, push_raw, push_raw_slice.
  cbn [sl_lay sl_len sl_data slice_at sl_addr].
  destruct k; apply Hpush; intros z1 D1 D2 D3 D4 D5 D6 D7 D8.
  + apply Hgo; auto. discriminate.
  + erewrite bind_ok by reflexivity. apply Hgo; auto.
  + erewrite bind_ok by reflexivity. apply Hgo; auto.
  + erewrite bind_ok by reflexivity. apply Hgo; auto.
Qed.


(** Without a panic of its own an implementation does not raise one of that kind. *)
Lemma nu_run_step : forall s a, may_panic s = false -> nouser (run_step k E m fuel a s).
Proof.
  fix IH 1. intros s a Hp.
  assert (IHs : forall ss a, existsb may_panic ss = false -> nouser (run_steps k E m fuel a ss)).
  { clear s a Hp. fix IHs 1. intros [|s ss] a Hp; [apply nu_ret|]. cbn [existsb] in Hp.
    apply Bool.orb_false_elim in Hp. destruct Hp as [Hp1 Hp2]. cbn [run_steps]. apply nu_bind; [apply IH; exact Hp1|].
    intros _. apply IHs. exact Hp2. }
  destruct s as [off l tp n body|off l tp n|l tp n|off l data|off t v|o|].
  - rewrite run_push. apply nu_bind; [apply nu_addr_off|intros ad]. apply nu_bind; [|intros _; apply nu_ret].
    apply nu_paps. apply IHs. exact Hp.
  - cbn [run_step]. apply nu_bind; [apply nu_addr_off|intros ad]. apply nu_bind; [apply nu_ser_push_slice|intros _; apply nu_ret].
  - cbn [run_step]. apply nu_bind; [apply nu_lift, nu_push_slice|intros _; apply nu_ret].
  - cbn [run_step]. apply nu_ow. apply nu_bind; [apply nu_addr_off|intros ad; apply nu_overwrite].
  - cbn [run_step]. apply nu_ser_data.
  - discriminate Hp.
  - discriminate Hp.
Qed.

Lemma nu_run_steps : forall ss a, existsb may_panic ss = false -> nouser (run_steps k E m fuel a ss).
Proof.
  induction ss as [|s ss IH]; intros a Hp; [apply nu_ret|]. cbn [existsb] in Hp.
  apply Bool.orb_false_elim in Hp. destruct Hp as [Hp1 Hp2]. cbn [run_steps]. apply nu_bind; [apply nu_run_step; exact Hp1|auto].
Qed.

(** A whole value with a hand-written implementation. *)
Lemma impl_done l a ss z G :
  good_layout l -> 0 < l_size l -> a + l_size l <= umod ->
  steps_ok E m fuel (l_size l) (l_align l) a ss -> zinv k z G ->
  rdone k z G ((l, 1) :: flat_map step_allocs ss) (push_start (zpos z) l)
    (fun B M => region k E m M B (push_start (zpos z) l) a (l_size l) (push_end (zpos z) l 1) ss)
    (serialize_value_with k (slice_at m l a 1) (run_steps k E m fuel a ss) z).
Proof.
  intros Hl Hsz Ha Hss Hz.
  apply (root_general l a _ _ _ z G Hl Hsz Hz).
  intros z1 Hp Hr. rewrite <- Hp.
  eapply (region_done (l_size l) (l_align l)); [| | | |exact Hr].
  - pose proof (c_VA_pos C). rewrite Hp. pose proof (push_end_ge C (zpos z) l 1). pose proof (push_start_ge C (zpos z) l (proj1 Hl)). lia.
  - apply all_goals. exact Hss.
  - unfold enclosing. ands; auto; try apply Hl. apply (push_start_align C), Hl.
  - eapply touched_inside. exact Hss.
Qed.

Lemma impl_reason l a ss z e z' :
  serialize_value_with k (slice_at m l a 1) (run_steps k E m fuel a ss) z = Panic e z' ->
  e = PUser -> existsb may_panic ss = true.
Proof.
  intros He ->. destruct (existsb may_panic ss) eqn:Ep; [reflexivity|exfalso].
  pose proof (nu_serialize_value_with k (slice_at m l a 1) _ (nu_run_steps ss a Ep) z) as Hn.
  rewrite He in Hn. exact Hn.
Qed.

(** ** Several values, panics caught *)
Lemma attempts_done : forall rs z G, Forall (root_in E m fuel) rs -> zinv k z G ->
  match attempt_all k E m fuel rs z with
  | Ok outs z' => exists G', zinv k z' (G ++ G') /\ zpos z <= zpos z' /\
      (forall q t, In (q, t) G' -> zpos z <= q) /\
      (forall i, i < zpos z -> zbuf z' i = zbuf z i) /\ extends (z_sw z) (z_sw z') /\
      (forall B M, (MVA | B) -> B + zpos z' < umod -> fits_mem z z' (G ++ G') (fun _ => False) B M ->
         attempts k E m M B (zpos z) rs outs (zpos z'))
  | Abort => alloc_failed
  | _ => False
  end.
Proof.
  induction rs as [|[[l a] ss] rs IH]; intros z G Hall Hz; cfg.
  - cbn. exists []. rewrite app_nil_r. ands; auto; try lia.
    + intros q t [].
    + apply extends_refl.
    + intros. constructor.
  - inversion Hall as [|? ? Hx Hxs]; subst. destruct Hx as (X1 & X2 & X3 & X4).
    cbn [attempt_all]. 
    assert (Hb : forall A (f : N -> M zs A), bind ser_pos f z = f (zpos z) z) by (intros; destruct z; reflexivity).
    rewrite Hb. clear Hb.
    pose proof (impl_done l a ss z G X1 X2 X3 X4 Hz) as HD.
    pose proof (impl_reason l a ss z) as HR.
    pose proof (steps_allocs_end _ _ _ _ X4 (push_end (zpos z) l 1) (push_end_VA _ _ _)) as Hend.
    unfold bind, catch.
    destruct (serialize_value_with k (slice_at m l a 1) (run_steps k E m fuel a ss) z) as [p z1|e z1| | |]; auto.
    + cbn [rdone] in HD. destruct HD as (G1 & -> & I1 & I3 & I4 & I5 & I6 & I7 & I8 & I9 & I10).
      specialize (IH z1 (G ++ G1) Hxs I1).
      destruct (attempt_all k E m fuel rs z1) as [outs z2|e z2| | |]; auto.
      destruct IH as (G2 & J1 & J2 & J3 & J4 & J5 & J6). cbn [ret].
      exists (G1 ++ G2). rewrite app_assoc. ands; auto; try lia.
      * intros q t Hin. apply in_app_or in Hin. destruct Hin as [Hin|Hin].
        -- destruct (I6 q t Hin). lia.
        -- pose proof (J3 q t Hin). lia.
      * intros i Hi. rewrite J4 by lia. apply I7; lia.
      * eapply extends_trans; eassumption.
      * intros B' M HB Hle Hfit. apply A_some.
        -- apply I10; [exact HB|lia|]. intros i [[]|Hi].
           rewrite Hfit by (right; lia).
           rewrite overlay_app_r.
           ++ apply overlay_buf. apply J4; lia.
           ++ intros q t Hin. destruct (covers i (q, t)) eqn:Ec; [|reflexivity].
              apply covers_true in Ec. exfalso. pose proof (J3 q t Hin). lia.
        -- rewrite <- Hend. cbn [end_pos] in I3. lia.
        -- cbn [end_pos] in I3. rewrite <- Hend, <- I3. apply J6; [exact HB|lia|]. intros i [[]|Hi]. apply Hfit. right; lia.
    + cbn [rdone] in HD. destruct HD as (D1 & D2 & D3 & D4 & D5 & G1 & D6 & D7).
      specialize (IH z1 (G ++ G1) Hxs D6).
      destruct (attempt_all k E m fuel rs z1) as [outs z2|e2 z2| | |]; auto.
      destruct IH as (G2 & J1 & J2 & J3 & J4 & J5 & J6). cbn [ret].
      exists (G1 ++ G2). rewrite app_assoc. ands; auto; try lia.
      * intros q t Hin. apply in_app_or in Hin. destruct Hin as [Hin|Hin].
        -- pose proof (D7 q t Hin). lia.
        -- pose proof (J3 q t Hin). lia.
      * intros i Hi. rewrite J4 by lia. apply D5; lia.
      * eapply extends_trans; eassumption.
      * intros B' M HB Hle Hfit. apply A_none with (b' := zpos z1); [|lia|].
        -- destruct D1 as [->|[_ D1]]; [left; eapply HR; reflexivity|right; rewrite <- Hend; exact (proj1 D1)].
        -- apply J6; [exact HB|lia|]. intros i [[]|Hi]. apply Hfit. right; lia.
    + apply HD.
Qed.
End ClientFacts.
