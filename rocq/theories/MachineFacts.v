(** * MachineFacts: tasks that are safe alone are safe together. *)
From Verif Require Import Base Types Storage Spec Prog Alone Confined Machine.
From Coq Require Import Arith ZifyBool ZifyNat ZifyN.
Local Open Scope N_scope.

(** The parameters with another allocator. *)
Definition with_orc (P : Params) (o : nat -> N -> N) : Params :=
  {| pW := pW; pBE := pBE; dbg := dbg; SA := SA; MVA := MVA; VA := VA; MAXC := MAXC; orc := o |}.

(** An allocator that answers aligned to [al] and inside the address space. *)
Definition orc_ok {P : Params} (al : N) (o : nat -> N -> N) : Prop :=
  forall n size, o n size = 0 \/ ((al | o n size) /\ o n size + size < umod).

(** A program that is safe alone: in the memory it is started in, it reads only its ranges,
    asks for its alignment, and is not undefined with any allocator. *)
Definition safe_alone {P : Params} {J S A} (t : task J S A) : Prop :=
  confined (tk_mem t) (tk_reads t) (tk_al t) (tk_prog t) /\
  forall o, orc_ok (tk_al t) o -> alone (P := with_orc P o) (tk_mem t) (tk_prog t) loc_new <> UB.

Section Local.
Context {P : Params} {S A : Type}.

(** One instruction of a program with its own block, the allocator answering as recorded. *)
Inductive lstep (m : mem) : prog S A -> loc -> list (N * N) -> prog S A -> loc -> Prop :=
| LAlloc size al k L a :
    (0 <? size) && layout_legal size al && (lc_size L =? 0) = true ->
    lstep m (IAlloc size al k) L [(size, a)] (k a)
      (if a =? 0 then count_call L
       else mkLoc a size al no_mem (Datatypes.S (lc_calls L)) (lc_trace L ++ [EAlloc a size al]))
| LRealloc addr old al new k L a :
    (0 <? old) && (0 <? new) && layout_legal old al && layout_legal new al
         && (addr =? lc_base L) && (old =? lc_size L) && (al =? lc_al L) = true ->
    lstep m (IRealloc addr old al new k) L [(new, a)] (k a)
      (if a =? 0 then count_call L
       else mkLoc a new al (fun i => if (i <? old) && (i <? new) then lc_buf L i else None)
                  (Datatypes.S (lc_calls L)) (lc_trace L ++ [ERealloc addr old al a new]))
| LDealloc addr size al k L :
    (0 <? size) && layout_legal size al
         && (addr =? lc_base L) && (size =? lc_size L) && (al =? lc_al L) = true ->
    lstep m (IDealloc addr size al k) L [] k
      (mkLoc addr 0 al no_mem (lc_calls L) (lc_trace L ++ [EDealloc addr size al]))
| LCopy src dst n k L :
    in_block L dst n = true ->
    lstep m (ICopy src dst n k) L [] k
      (mkLoc (lc_base L) (lc_size L) (lc_al L) (blit (lc_buf L) (dst - lc_base L) n (mem_from m src)) (lc_calls L) (lc_trace L))
| LStore dst n data k L :
    in_block L dst n = true ->
    lstep m (IStore dst n data k) L [] k
      (mkLoc (lc_base L) (lc_size L) (lc_al L) (blit (lc_buf L) (dst - lc_base L) n data) (lc_calls L) (lc_trace L))
| LLoad a n k L : lstep m (ILoad a n k) L [] (k (cells m a n)) L
| LRead a n k L : in_block L a n = true -> lstep m (IRead a n k) L [] (k (cells (lc_buf L) (a - lc_base L) n)) L.

Inductive lruns (m : mem) (p0 : prog S A) (L0 : loc) : list (N * N) -> prog S A -> loc -> Prop :=
| lr_nil : lruns m p0 L0 [] p0 L0
| lr_snoc ans p L ev p' L' : lruns m p0 L0 ans p L -> lstep m p L ev p' L' -> lruns m p0 L0 (ans ++ ev) p' L'.

(** The allocator that answers as recorded, and null from then on. *)
Definition recorded (ans : list (N * N)) : nat -> N -> N :=
  fun n size => match nth_error ans n with Some (sz, a) => if sz =? size then a else 0 | None => 0 end.

Lemma recorded_ok al ans : Forall (fun x => snd x = 0 \/ ((al | snd x) /\ snd x + fst x < umod)) ans -> orc_ok al (recorded ans).
Proof.
  intros H n size. unfold recorded. destruct (nth_error ans n) as [[sz a]|] eqn:E; [|left; reflexivity].
  destruct (N.eqb_spec sz size) as [->|]; [|left; reflexivity]. rewrite Forall_forall in H. apply (H (size, a)). eapply nth_error_In; eauto.
Qed.

Definition agrees (o : nat -> N -> N) (ans : list (N * N)) : Prop :=
  forall n sz a, nth_error ans n = Some (sz, a) -> o n sz = a.
Lemma recorded_agrees ans : agrees (recorded ans) ans.
Proof. intros n sz a H. unfold recorded. rewrite H, N.eqb_refl. reflexivity. Qed.

Lemma lruns_calls m p0 L0 ans p L : lruns m p0 L0 ans p L -> lc_calls L = (lc_calls L0 + length ans)%nat.
Proof.
  induction 1 as [|ans p L ev p' L' Hr IH Hs]; [cbn; lia|]. rewrite app_length.
  inversion Hs; subst; try (destruct (_ =? 0)); cbn [count_call lc_calls length]; lia.
Qed.

Lemma alone_lruns m p0 L0 ans p L o : lruns m p0 L0 ans p L -> lc_calls L0 = O -> agrees o ans ->
  alone (P := with_orc P o) m p0 L0 = alone (P := with_orc P o) m p L.
Proof.
  induction 1 as [|ans p L ev p' L' Hr IH Hs]; intros H0 Ha; [reflexivity|].
  rewrite IH; auto.
  2:{ intros n sz a Hn. apply Ha. rewrite nth_error_app1; [exact Hn|]. apply nth_error_Some. congruence. }
  pose proof (lruns_calls _ _ _ _ _ _ Hr) as Hc. rewrite H0 in Hc. cbn in Hc.
  inversion Hs as [size al k L1 a G|addr old al new k L1 a G|addr size al k L1 G|src dst n k L1 G|dst n data k L1 G|a n k L1|a n k L1 G];
    subst; cbn [alone].
  - change (@layout_legal (with_orc P o)) with (@layout_legal P). rewrite G.
    assert (Hoa : orc (Params := with_orc P o) (lc_calls L) size = a).
    { cbn [orc with_orc]. apply Ha. rewrite nth_error_app2 by lia. rewrite Hc, Nat.sub_diag. reflexivity. }
    rewrite Hoa. destruct (N.eqb_spec a 0) as [Z|Z]; [rewrite Z|]; reflexivity.
  - change (@layout_legal (with_orc P o)) with (@layout_legal P). rewrite G.
    assert (Hoa : orc (Params := with_orc P o) (lc_calls L) new = a).
    { cbn [orc with_orc]. apply Ha. rewrite nth_error_app2 by lia. rewrite Hc, Nat.sub_diag. reflexivity. }
    rewrite Hoa. destruct (N.eqb_spec a 0) as [Z|Z]; [rewrite Z|]; reflexivity.
  - change (@layout_legal (with_orc P o)) with (@layout_legal P). rewrite G. reflexivity.
  - rewrite G. reflexivity.
  - rewrite G. reflexivity.
  - reflexivity.
  - rewrite G. reflexivity.
Qed.

Lemma confined_lstep m bs al p L ev p' L' : confined m bs al p -> lstep m p L ev p' L' -> confined m bs al p'.
Proof. intros Hc Hs. inversion Hs; subst; cbn [confined] in Hc; try (destruct Hc as [? Hc]); auto. Qed.
Lemma confined_lruns m bs al p0 L0 ans p L : confined m bs al p0 -> lruns m p0 L0 ans p L -> confined m bs al p.
Proof. intros H0. induction 1; [exact H0|]. eapply confined_lstep; eauto. Qed.

End Local.

Section Together.
Context {P : Params} {J S A : Type}.
Notation gstate := (gstate J S A).
Notation task := (task J S A).

(** The block of task [i] and its contents are those of the run alone. *)
Definition mirrors (st : gstate) (i : nat) (L : loc) : Prop :=
  (forall b, In b (g_live st) -> b_own b = Some i -> b = mkBlk (lc_base L) (lc_size L) (lc_al L) (Some i) /\ 0 < lc_size L) /\
  (0 < lc_size L -> In (mkBlk (lc_base L) (lc_size L) (lc_al L) (Some i)) (g_live st)) /\
  (forall j, j < lc_size L -> g_mem st (lc_base L + j) = lc_buf L j).

(** Task [t], number [i], is in the middle of a run alone. *)
Definition on_track (adm : task -> Prop) (st : gstate) (i : nat) (t : task) : Prop :=
  exists p0 ans L,
    adm (with_prog t p0) /\
    lruns (tk_mem t) p0 loc_new ans (tk_prog t) L /\
    Forall (fun x => snd x = 0 \/ ((tk_al t | snd x) /\ snd x + fst x < umod)) ans /\
    (forall r x, In r (tk_reads t) -> in_range x (fst r) (snd r) -> g_mem st x = tk_mem t x) /\
    mirrors st i L.

Definition invariant (adm : task -> Prop) (st : gstate) : Prop :=
  (forall i t, g_tasks st i = Some t -> on_track adm st i t) /\
  (forall b i, In b (g_live st) -> b_own b = Some i -> g_tasks st i <> None) /\
  (forall b b' i x, In b (g_live st) -> In b' (g_live st) -> b_own b = Some i -> in_blk x b -> in_blk x b' -> b = b') /\
  (forall x, owned_by_task st x -> ~ read_by_task st x).

Variable adm : task -> Prop.
Hypothesis Hadm : forall t, adm t -> safe_alone t.

Lemma within_cells m m' bs a n : within bs a n -> (forall r x, In r bs -> in_range x (fst r) (snd r) -> m x = m' x) ->
  cells m a n = cells m' a n.
Proof.
  intros Hw He. unfold cells. apply map_ext_in. intros j Hj. apply in_seq in Hj.
  destruct Hw as [->|(r & R1 & R2 & R3)]; [cbn in Hj; lia|]. apply (He r _ R1). unfold in_range. lia.
Qed.

Lemma cells_ext m m' a a' n : (forall j, j < n -> m (a + j) = m' (a' + j)) -> cells m a n = cells m' a' n.
Proof. intros H. unfold cells. apply map_ext_in. intros j Hj. apply in_seq in Hj. apply H. lia. Qed.

(** Owning in the machine is having in the block alone. *)
Lemma owns_in_block st i L a n : mirrors st i L -> (owns (g_live st) i a n <-> in_block L a n = true).
Proof.
  intros (M1 & M2 & _). unfold owns, in_block. split.
  - intros [->|(b & B1 & B2 & B3 & B4)]; [reflexivity|]. destruct (M1 b B1 B2) as [-> Hs]. cbn in *. lia.
  - intros H. destruct (N.eqb_spec n 0) as [Z|Z]; [left; exact Z|]. cbn [orb] in H. right.
    exists (mkBlk (lc_base L) (lc_size L) (lc_al L) (Some i)). cbn. split; [apply M2; lia|]. split; [reflexivity|lia].
Qed.


(** A program that is not undefined alone is not undefined in the machine. *)
Lemma defined_together st i t m0 L o :
  alone (P := with_orc P o) m0 (tk_prog t) L <> UB ->
  confined m0 (tk_reads t) (tk_al t) (tk_prog t) -> mirrors st i L ->
  (forall x, owned_by_task st x -> ~ read_by_task st x) -> g_tasks st i = Some t ->
  defined st i t.
Proof.
  intros Hn Hc Hm Hd Ht. unfold defined.
  pose proof (fun a n => owns_in_block st i L a n Hm) as Ho. destruct Hm as (M1 & M2 & M3).
  destruct (tk_prog t) as [oc|size al k|addr old al new k|addr size al k|src dst n k|dst n data k|a n k|a n k] eqn:Ep; cbn [alone confined] in *.
  - intros ->. apply Hn. reflexivity.
  - change (@layout_legal (with_orc P o)) with (@layout_legal P) in Hn.
    destruct ((0 <? size) && layout_legal size al && (lc_size L =? 0)) eqn:G; [|congruence].
    repeat (apply andb_prop in G; destruct G as [G ?]). split; [lia|assumption].
  - change (@layout_legal (with_orc P o)) with (@layout_legal P) in Hn.
    destruct ((0 <? old) && (0 <? new) && layout_legal old al && layout_legal new al
         && (addr =? lc_base L) && (old =? lc_size L) && (al =? lc_al L)) eqn:G; [|congruence].
    repeat (apply andb_prop in G; destruct G as [G ?]). split; [|split; [lia|assumption]].
    assert (addr = lc_base L) as -> by lia. assert (old = lc_size L) as -> by lia. assert (al = lc_al L) as -> by lia. apply M2. lia.
  - change (@layout_legal (with_orc P o)) with (@layout_legal P) in Hn.
    destruct ((0 <? size) && layout_legal size al && (addr =? lc_base L) && (size =? lc_size L) && (al =? lc_al L)) eqn:G; [|congruence].
    repeat (apply andb_prop in G; destruct G as [G ?]).
    assert (addr = lc_base L) as -> by lia. assert (size = lc_size L) as -> by lia. assert (al = lc_al L) as -> by lia. apply M2. lia.
  - destruct (in_block L dst n) eqn:G; [|congruence]. destruct Hc as [Hc _]. apply Ho in G.
    split; [exact Hc|]. split; [exact G|]. intros x X1 X2. apply (Hd x).
    + destruct G as [->|(b & B1 & B2 & B3 & B4)]; [unfold in_range in *; lia|]. exists b, i. unfold in_blk, in_range in *. repeat split; auto; lia.
    + destruct Hc as [->|(r & R1 & R2 & R3)]; [unfold in_range in *; lia|]. exists i, t, r. unfold in_range in *. repeat split; auto; lia.
  - destruct (in_block L dst n) eqn:G; [|congruence]. apply Ho in G. exact G.
  - apply Hc.
  - destruct (in_block L a n) eqn:G; [|congruence]. apply Ho in G. exact G.
Qed.

Lemma on_track_facts st i t : on_track adm st i t ->
  exists p0 ans L,
    adm (with_prog t p0) /\
    lruns (tk_mem t) p0 loc_new ans (tk_prog t) L /\
    Forall (fun x => snd x = 0 \/ ((tk_al t | snd x) /\ snd x + fst x < umod)) ans /\
    (forall r x, In r (tk_reads t) -> in_range x (fst r) (snd r) -> g_mem st x = tk_mem t x) /\
    mirrors st i L /\
    confined (tk_mem t) (tk_reads t) (tk_al t) (tk_prog t) /\
    alone (P := with_orc P (recorded ans)) (tk_mem t) p0 loc_new = alone (P := with_orc P (recorded ans)) (tk_mem t) (tk_prog t) L /\
    alone (P := with_orc P (recorded ans)) (tk_mem t) (tk_prog t) L <> UB.
Proof.
  intros (p0 & ans & L & H1 & H2 & H3 & H4 & H5). exists p0, ans, L.
  destruct (Hadm _ H1) as [C1 C2]. cbn [with_prog tk_mem tk_reads tk_al tk_prog] in *.
  pose proof (alone_lruns (tk_mem t) p0 loc_new ans (tk_prog t) L (recorded ans) H2 eq_refl (recorded_agrees ans)) as He.
  repeat (split; [solve [auto]|]). split; [eapply confined_lruns; eauto|]. split; [exact He|]. rewrite <- He. apply C2. apply recorded_ok. exact H3.
Qed.

Theorem invariant_defined st : invariant adm st -> forall i t, g_tasks st i = Some t -> defined st i t.
Proof.
  intros (I1 & _ & _ & I4) i t Ht. destruct (on_track_facts st i t (I1 i t Ht)) as (p0 & ans & L & _ & _ & _ & _ & H5 & H6 & _ & H8).
  eapply defined_together; eauto.
Qed.

(** The bytes the next instruction writes are the task's own; those it reads, its own or lent. *)
Lemma accesses_own (st : gstate) i (t : task) x w : defined st i t -> g_tasks st i = Some t -> accesses (tk_prog t) x w ->
  (exists b, In b (g_live st) /\ b_own b = Some i /\ in_blk x b) \/ (w = false /\ read_by_task st x).
Proof.
  intros Hu Ht Ha. unfold defined, accesses in *.
  assert (Hown : forall a n, owns (g_live st) i a n -> in_range x a n -> exists b, In b (g_live st) /\ b_own b = Some i /\ in_blk x b).
  { intros a n [->|(b & B1 & B2 & B3 & B4)] Hx; [unfold in_range in Hx; lia|]. exists b. unfold in_blk, in_range in *. repeat split; auto; lia. }
  assert (Hrd : forall a n, within (tk_reads t) a n -> in_range x a n -> read_by_task st x).
  { intros a n [->|(r & R1 & R2 & R3)] Hx; [unfold in_range in Hx; lia|]. exists i, t, r. unfold in_range in *. repeat split; auto; lia. }
  destruct (tk_prog t) as [oc|size al k|addr old al new k|addr size al k|src dst n k|dst n data k|a n k|a n k] eqn:Ep; try contradiction.
  - destruct Ha as [Ha ->]. left. exists (mkBlk addr old al (Some i)). split; [apply Hu|split; [reflexivity|exact Ha]].
  - destruct Ha as [Ha ->]. left. exists (mkBlk addr size al (Some i)). split; [apply Hu|split; [reflexivity|exact Ha]].
  - destruct Hu as (U1 & U2 & _). destruct Ha as [[Ha ->]|[Ha ->]]; [right; split; [reflexivity|eauto]|left; eauto].
  - destruct Ha as [Ha ->]. left. eauto.
  - destruct Ha as [Ha ->]. right. split; [reflexivity|eauto].
  - destruct Ha as [Ha ->]. left. eauto.
Qed.

Theorem invariant_no_race (st : gstate) : invariant adm st -> ~ data_race st.
Proof.
  intros HI (i & j & t & t' & x & w & Hne & Ht & Ht' & Ha & Ha').
  pose proof (invariant_defined st HI i t Ht) as D. pose proof (invariant_defined st HI j t' Ht') as D'.
  destruct HI as (I1 & I2 & I3 & I4).
  destruct (accesses_own st i t x true D Ht Ha) as [(b & B1 & B2 & B3)|[? _]]; [|discriminate].
  destruct (accesses_own st j t' x w D' Ht' Ha') as [(b' & B1' & B2' & B3')|[_ K]].
  - assert (b = b') by (eapply I3; eauto). subst b'. congruence.
  - apply (I4 x); [|exact K]. exists b, i. auto.
Qed.

(** ** Steps keep the invariant *)

(** Nobody but task [i] has byte [x]. *)
Definition unused (st : gstate) (i : nat) (x : N) : Prop :=
  ~ (exists b, In b (g_live st) /\ b_own b <> Some i /\ in_blk x b) /\ ~ read_by_task st x.

Lemma in_remove_own (st : gstate) b b0 : In b (remove blk_eq_dec b0 (g_live st)) <-> In b (g_live st) /\ b <> b0.
Proof. split; intros H; [apply in_remove in H; tauto|apply in_in_remove; tauto]. Qed.

Lemma in_range_dec x a n : in_range x a n \/ ~ in_range x a n.
Proof. unfold in_range. destruct (N.le_gt_cases a x), (N.lt_ge_cases x (a + n)); [left|right|right|right]; lia. Qed.

Lemma tstep_effect (st : gstate) i bs p m' live' p' : tstep st i bs p m' live' p' ->
  (forall b, b_own b <> Some i -> (In b live' <-> In b (g_live st))) /\
  (forall b, In b live' -> b_own b = Some i -> In b (g_live st) \/ (forall x, in_blk x b -> unused st i x)) /\
  (forall x, m' x = g_mem st x \/ (exists b, In b (g_live st) /\ b_own b = Some i /\ in_blk x b) \/ unused st i x) /\
  (forall b b' x, In b live' -> In b' live' -> b_own b = Some i -> b_own b' = Some i ->
     (forall c c', In c (g_live st) -> In c' (g_live st) -> b_own c = Some i -> b_own c' = Some i -> in_blk x c -> in_blk x c' -> c = c') ->
     in_blk x b -> in_blk x b' -> b = b').
Proof.
  assert (Huse : forall live size al a, a <> 0 -> answer st live size al a ->
    (forall b, In b (g_live st) -> b_own b <> Some i -> In b live) -> forall x, in_range x a size -> unused st i x).
  { intros live size al a Ha [K|(K1 & K2 & K3)] Hl x Hx; [contradiction|]. destruct (K3 x Hx) as [N1 N2].
    split; [|exact N2]. intros (b & B1 & B2 & B3). apply N1. exists b. auto. }
  assert (Hown : forall a n x, owns (g_live st) i a n -> in_range x a n -> exists b, In b (g_live st) /\ b_own b = Some i /\ in_blk x b).
  { intros a n x [->|(b & B1 & B2 & B3 & B4)] Hx; [unfold in_range in Hx; lia|]. exists b. unfold in_blk, in_range in *. repeat split; auto; lia. }
  intros H. inversion H as [size al k G1 G2|size al k a m1 G1 G2 G3 G4 G5 G6|addr old al new k G1 G2 G3
    |addr old al new k a m1 G1 G2 G3 G4 G5 G6 G7|addr size al k m1 G1 G2|src dst n k m1 G1 G2 G3|dst n data k m1 G1 G2|a n k G1|a n k G1]; subst.
  - repeat split; auto; tauto.
  - pose proof (Huse _ _ _ _ G3 G4 (fun b h _ => h)) as U. repeat split.
    + intros [<-|Hb]; [cbn in *; congruence|exact Hb].
    + intros Hb. right. exact Hb.
    + intros b [<-|Hb] Ho; [right; intros x Hx; apply U; exact Hx|left; exact Hb].
    + intros x. destruct (in_range_dec x a size) as [Hx|Hx]; [right; right; apply U; exact Hx|left; apply G6; exact Hx].
    + intros b b' x [<-|Hb] [<-|Hb'] Ho Ho' Hc Hx Hx'; auto.
      * destruct G4 as [K|(K1 & K2 & K3)]; [contradiction|]. destruct (K3 x Hx) as [N1 _]. exfalso. apply N1. exists b'. auto.
      * destruct G4 as [K|(K1 & K2 & K3)]; [contradiction|]. destruct (K3 x Hx') as [N1 _]. exfalso. apply N1. exists b. auto.
  - repeat split; auto; tauto.
  - assert (U : forall x, in_range x a new -> unused st i x).
    { apply (Huse _ _ _ _ G4 G5). intros b Hb Ho. apply in_remove_own. split; [exact Hb|]. intros ->. apply Ho. reflexivity. }
    repeat split.
    + intros [<-|Hb]; [cbn in *; congruence|]. apply in_remove_own in Hb. apply Hb.
    + intros Hb. right. apply in_remove_own. split; [exact Hb|]. intros ->. apply H0. reflexivity.
    + intros b [<-|Hb] Ho; [right; intros x Hx; apply U; exact Hx|left]. apply in_remove_own in Hb. apply Hb.
    + intros x. destruct (in_range_dec x a new) as [Hx|Hx]; [right; right; apply U; exact Hx|].
      destruct (in_range_dec x addr old) as [Hy|Hy]; [|left; apply G7; assumption].
      right. left. exists (mkBlk addr old al (Some i)). repeat split; auto; apply Hy.
    + intros b b' x [<-|Hb] [<-|Hb'] Ho Ho' Hc Hx Hx'; auto.
      * destruct G5 as [K|(K1 & K2 & K3)]; [contradiction|]. destruct (K3 x Hx) as [N1 _]. exfalso. apply N1. exists b'. auto.
      * destruct G5 as [K|(K1 & K2 & K3)]; [contradiction|]. destruct (K3 x Hx') as [N1 _]. exfalso. apply N1. exists b. auto.
      * apply in_remove_own in Hb. apply in_remove_own in Hb'. apply Hc; tauto.
  - repeat split.
    + intros Hb. apply in_remove_own in Hb. apply Hb.
    + intros Hb. apply in_remove_own. split; [exact Hb|]. intros ->. apply H0. reflexivity.
    + intros b Hb Ho. apply in_remove_own in Hb. left. apply Hb.
    + intros x. destruct (in_range_dec x addr size) as [Hy|Hy]; [|left; apply G2; assumption].
      right. left. exists (mkBlk addr size al (Some i)). repeat split; auto; apply Hy.
    + intros b b' x Hb Hb' Ho Ho' Hc Hx Hx'. apply in_remove_own in Hb. apply in_remove_own in Hb'. apply Hc; tauto.
  - repeat split; auto; try tauto. intros x. rewrite G3. destruct ((dst <=? x) && (x <? dst + n)) eqn:Hx; [|left; reflexivity].
    right. left. apply (Hown dst n x G2). unfold in_range. lia.
  - repeat split; auto; try tauto. intros x. rewrite G2. destruct ((dst <=? x) && (x <? dst + n)) eqn:Hx; [|left; reflexivity].
    right. left. apply (Hown dst n x G1). unfold in_range. lia.
  - repeat split; auto; tauto.
  - repeat split; auto; tauto.
Qed.

Lemma tstep_local (st : gstate) i bs tal p m' live' p' m0 L o ts :
  tstep st i bs p m' live' p' ->
  alone (P := with_orc P o) m0 p L <> UB ->
  confined m0 bs tal p ->
  (forall r x, In r bs -> in_range x (fst r) (snd r) -> g_mem st x = m0 x) ->
  mirrors st i L ->
  exists ev L', lstep m0 p L ev p' L' /\
    Forall (fun x => snd x = 0 \/ ((tal | snd x) /\ snd x + fst x < umod)) ev /\
    mirrors (mkG m' live' ts) i L'.
Proof.
  intros Hs Hn Hc Hr Hm. pose proof (fun a n => owns_in_block st i L a n Hm) as Ho. pose proof Hm as (M1 & M2 & M3).
  revert Hn Hc.
  inversion Hs as [size al k G1 G2|size al k a m1 G1 G2 G3 G4 G5 G6|addr old al new k G1 G2 G3
    |addr old al new k a m1 G1 G2 G3 G4 G5 G6 G7|addr size al k m1 G1 G2|src dst n k m1 G1 G2 G3|dst n data k m1 G1 G2|a n k G1|a n k G1]; subst;
    cbn [alone confined]; change (@layout_legal (with_orc P o)) with (@layout_legal P); intros Hn Hc.
  - destruct ((0 <? size) && _ && (lc_size L =? 0)) eqn:G; [|congruence].
    eexists [(size, 0)], _. split; [apply (LAlloc m0 size al k L 0 G)|]. split; [constructor; [left; reflexivity|constructor]|exact Hm].
  - destruct ((0 <? size) && _ && (lc_size L =? 0)) eqn:G; [|congruence]. destruct Hc as [-> _].
    eexists [(size, a)], _. split; [apply (LAlloc m0 size tal k L a G)|]. split.
    { constructor; [|constructor]. cbn. destruct G4 as [K|(K1 & K2 & _)]; auto. }
    destruct (N.eqb_spec a 0); [contradiction|].
    assert (Hz : lc_size L = 0) by lia. split; [|split]; cbn [g_live g_mem lc_base lc_size lc_al lc_buf].
    + intros b [<-|Hb] Hob; [split; [reflexivity|lia]|]. destruct (M1 b Hb Hob). lia.
    + intros _. left. reflexivity.
    + intros j Hj. apply G5. unfold in_range. lia.
  - destruct (_ && (al =? lc_al L)) eqn:G; [|congruence].
    eexists [(new, 0)], _. split; [apply (LRealloc m0 addr old al new k L 0 G)|]. split; [constructor; [left; reflexivity|constructor]|exact Hm].
  - destruct (_ && (al =? lc_al L)) eqn:G; [|congruence]. destruct Hc as [-> _].
    eexists [(new, a)], _. split; [apply (LRealloc m0 addr old tal new k L a G)|]. split.
    { constructor; [|constructor]. cbn. destruct G5 as [K|(K1 & K2 & _)]; auto. }
    destruct (N.eqb_spec a 0); [contradiction|].
    repeat (apply andb_prop in G; destruct G as [G ?]).
    assert (addr = lc_base L) as -> by lia. assert (old = lc_size L) as -> by lia. assert (HAL : tal = lc_al L) by lia. rewrite HAL in *.
    split; [|split]; cbn [g_live g_mem lc_base lc_size lc_al lc_buf].
    + intros b [<-|Hb] Hob; [split; [reflexivity|lia]|]. apply in_remove_own in Hb. destruct Hb as [Hb Hne]. destruct (M1 b Hb Hob). contradiction.
    + intros _. left. reflexivity.
    + intros j Hj. rewrite G6 by (unfold in_range; lia). replace (a + j - a) with j by lia.
      replace (j <? new) with true by lia. rewrite andb_true_r. destruct (N.ltb_spec j (lc_size L)); [apply M3; assumption|reflexivity].
  - destruct (_ && (al =? lc_al L)) eqn:G; [|congruence].
    eexists [], _. split; [apply (LDealloc m0 addr size al p' L G)|]. split; [constructor|].
    repeat (apply andb_prop in G; destruct G as [G ?]).
    assert (addr = lc_base L) as -> by lia. assert (size = lc_size L) as -> by lia. assert (al = lc_al L) as -> by lia.
    split; [|split]; cbn [g_live g_mem lc_base lc_size lc_al lc_buf].
    + intros b Hb Hob. apply in_remove_own in Hb. destruct Hb as [Hb Hne]. destruct (M1 b Hb Hob). contradiction.
    + lia.
    + intros j Hj. lia.
  - destruct (in_block L dst n) eqn:G; [|congruence]. destruct Hc as [Hw _].
    eexists [], _. split; [apply (LCopy m0 src dst n p' L G)|]. split; [constructor|].
    split; [|split]; cbn [g_live g_mem lc_base lc_size lc_al lc_buf]; auto.
    intros j Hj. rewrite G3. unfold blit, mem_from. unfold in_block in G.
    destruct (N.eqb_spec n 0) as [->|Hn0].
    + replace ((dst <=? lc_base L + j) && (lc_base L + j <? dst + 0)) with false by lia.
      replace ((dst - lc_base L <=? j) && (j <? dst - lc_base L + 0)) with false by lia. apply M3. exact Hj.
    + cbn [orb] in G. destruct ((dst <=? lc_base L + j) && (lc_base L + j <? dst + n)) eqn:Hin.
      * replace ((dst - lc_base L <=? j) && (j <? dst - lc_base L + n)) with true by lia.
        destruct Hw as [?|(r & R1 & R2 & R3)]; [lia|].
        replace (src + (j - (dst - lc_base L))) with (src + (lc_base L + j - dst)) by lia. apply (Hr r); [exact R1|]. unfold in_range. lia.
      * replace ((dst - lc_base L <=? j) && (j <? dst - lc_base L + n)) with false by lia. apply M3. exact Hj.
  - destruct (in_block L dst n) eqn:G; [|congruence].
    eexists [], _. split; [apply (LStore m0 dst n data p' L G)|]. split; [constructor|].
    split; [|split]; cbn [g_live g_mem lc_base lc_size lc_al lc_buf]; auto.
    intros j Hj. rewrite G2. unfold blit. unfold in_block in G.
    destruct (N.eqb_spec n 0) as [->|Hn0].
    + replace ((dst <=? lc_base L + j) && (lc_base L + j <? dst + 0)) with false by lia.
      replace ((dst - lc_base L <=? j) && (j <? dst - lc_base L + 0)) with false by lia. apply M3. exact Hj.
    + cbn [orb] in G. destruct ((dst <=? lc_base L + j) && (lc_base L + j <? dst + n)) eqn:Hin.
      * replace ((dst - lc_base L <=? j) && (j <? dst - lc_base L + n)) with true by lia. f_equal. lia.
      * replace ((dst - lc_base L <=? j) && (j <? dst - lc_base L + n)) with false by lia. apply M3. exact Hj.
  - rewrite (within_cells (g_mem st) m0 bs a n G1 Hr).
    eexists [], _. split; [apply LLoad|]. split; [constructor|exact Hm].
  - destruct (in_block L a n) eqn:G; [|congruence].
    assert (Hce : cells (g_mem st) a n = cells (lc_buf L) (a - lc_base L) n).
    { destruct (N.eq_dec n 0) as [->|Hn0]; [reflexivity|]. apply cells_ext. intros j Hj. unfold in_block in G.
      replace (a + j) with (lc_base L + (a - lc_base L + j)) by lia. apply M3. lia. }
    rewrite Hce. eexists [], _. split; [apply LRead; exact G|]. split; [constructor|exact Hm].
Qed.

(** What other tasks do to memory and blocks of their own does not matter to task [j]. *)
Lemma on_track_frame (st st' : gstate) j (t : task) :
  (forall b, b_own b = Some j -> (In b (g_live st') <-> In b (g_live st))) ->
  (forall b x, In b (g_live st) -> b_own b = Some j -> in_blk x b -> g_mem st' x = g_mem st x) ->
  (forall r x, In r (tk_reads t) -> in_range x (fst r) (snd r) -> g_mem st' x = g_mem st x) ->
  on_track adm st j t -> on_track adm st' j t.
Proof.
  intros F1 F2 F3 (p0 & ans & L & H1 & H2 & H3 & H4 & M1 & M2 & M3).
  exists p0, ans, L. repeat (split; [solve [auto]|]). split; [|split; [|split]].
  - intros r x Hr Hx. rewrite (F3 r x Hr Hx). eauto.
  - intros b Hb Ho. apply M1; [|exact Ho]. apply F1; assumption.
  - intros Hs. apply F1; [reflexivity|]. apply M2. exact Hs.
  - intros k Hk. rewrite <- (M3 k Hk). apply (F2 (mkBlk (lc_base L) (lc_size L) (lc_al L) (Some j))).
    + apply M2. lia.
    + reflexivity.
    + unfold in_blk, in_range. cbn. lia.
Qed.

Lemma set_task_same {J' S' A'} (ts : nat -> option (Machine.task J' S' A')) i t : set_task ts i t i = t.
Proof. unfold set_task. rewrite Nat.eqb_refl. reflexivity. Qed.
Lemma set_task_other {J' S' A'} (ts : nat -> option (Machine.task J' S' A')) i j t : j <> i -> set_task ts i t j = ts j.
Proof. intros H. unfold set_task. apply Nat.eqb_neq in H. rewrite H. reflexivity. Qed.

Lemma invariant_start (st : gstate) : start_state st -> invariant adm st.
Proof.
  intros [H1 H2]. repeat split.
  - intros i t H. rewrite H1 in H. discriminate.
  - intros b i Hb Ho. rewrite (H2 b Hb) in Ho. discriminate.
  - intros b b' i x Hb Hb' Ho. rewrite (H2 b Hb) in Ho. discriminate.
  - intros x (b & i & Hb & Ho & _). rewrite (H2 b Hb) in Ho. discriminate.
Qed.

Lemma invariant_task (st : gstate) i (t : task) m' live' p' : invariant adm st -> g_tasks st i = Some t ->
  tstep st i (tk_reads t) (tk_prog t) m' live' p' ->
  invariant adm (mkG m' live' (set_task (g_tasks st) i (Some (with_prog t p')))).
Proof.
  intros (I1 & I2 & I3 & I4) Ht Hs.
  destruct (on_track_facts st i t (I1 i t Ht)) as (p0 & ans & L & F1 & F2 & F3 & F4 & F5 & F6 & F7 & F8).
  destruct (tstep_local st i (tk_reads t) (tk_al t) (tk_prog t) m' live' p' (tk_mem t) L _ 
     (set_task (g_tasks st) i (Some (with_prog t p'))) Hs F8 F6 F4 F5) as (ev & L' & S1 & S2 & S3).
  destruct (tstep_effect st i (tk_reads t) (tk_prog t) m' live' p' Hs) as (E1 & E2 & E3 & E4).
  (* reads of all tasks are unchanged *)
  assert (Hrd : forall x, read_by_task st x -> m' x = g_mem st x).
  { intros x Hx. destruct (E3 x) as [E|[(b & B1 & B2 & B3)|[_ U]]]; [exact E| |contradiction].
    exfalso. apply (I4 x); [|exact Hx]. exists b, i. auto. }
  assert (Hot : forall b j x, In b (g_live st) -> b_own b = Some j -> j <> i -> in_blk x b -> m' x = g_mem st x).
  { intros b j x Hb Ho Hj Hx. destruct (E3 x) as [E|[(b' & B1 & B2 & B3)|[U _]]]; [exact E| |].
    - assert (b = b') by (eapply I3; eauto). subst b'. congruence.
    - exfalso. apply U. exists b. split; [exact Hb|]. split; [congruence|exact Hx]. }
  assert (Hrb : forall x, read_by_task (mkG m' live' (set_task (g_tasks st) i (Some (with_prog t p')))) x <-> read_by_task st x).
  { intros x. split; intros (j & t' & r & R1 & R2 & R3); cbn [g_tasks] in R1; destruct (Nat.eq_dec j i) as [->|Hj].
    - rewrite set_task_same in R1. injection R1 as <-. exists i, t, r. auto.
    - rewrite set_task_other in R1 by exact Hj. exists j, t', r. auto.
    - rewrite Ht in R1. injection R1 as <-. exists i, (with_prog t p'), r. cbn [g_tasks]. rewrite set_task_same. auto.
    - exists j, t', r. cbn [g_tasks]. rewrite set_task_other by exact Hj. auto. }
  split; [|split; [|split]].
  - intros j t' Ht'. cbn [g_tasks] in Ht'. destruct (Nat.eq_dec j i) as [->|Hj].
    + rewrite set_task_same in Ht'. injection Ht' as <-. exists p0, (ans ++ ev), L'. cbn [with_prog tk_mem tk_reads tk_al tk_prog g_mem].
      split; [exact F1|]. split; [eapply lr_snoc; eauto|]. split; [apply Forall_app; auto|]. split; [|exact S3].
      intros r x Hr Hx. rewrite (Hrd x); [eauto|]. exists i, t, r. auto.
    + rewrite set_task_other in Ht' by exact Hj. apply (on_track_frame st); [| | |apply I1; exact Ht'].
      * intros b Ho. cbn [g_live]. apply E1. congruence.
      * intros b x Hb Ho Hx. cbn [g_mem]. eapply Hot; eauto.
      * intros r x Hr Hx. cbn [g_mem]. apply Hrd. exists j, t', r. auto.
  - intros b j Hb Ho. cbn [g_tasks g_live] in *. destruct (Nat.eq_dec j i) as [->|Hj].
    + rewrite set_task_same. discriminate.
    + rewrite set_task_other by exact Hj. apply (I2 b); [|exact Ho]. apply E1; [congruence|exact Hb].
  - assert (Hmix : forall b b' x, In b live' -> In b' live' -> b_own b = Some i -> b_own b' <> Some i -> in_blk x b -> in_blk x b' -> False).
    { intros b b' x Hb Hb' Ho Ho' Hx Hx'. apply E1 in Hb'; [|exact Ho']. destruct (E2 b Hb Ho) as [K|K].
      - assert (b = b') by (eapply I3; eauto). subst b'. contradiction.
      - destruct (K x Hx) as [U _]. apply U. exists b'. auto. }
    assert (Hd : forall b : blk, b_own b = Some i \/ b_own b <> Some i).
    { intros b. destruct (b_own b) as [j|]; [|right; discriminate]. destruct (Nat.eq_dec j i) as [->|Hj]; [left; reflexivity|right; congruence]. }
    intros b b' j x Hb Hb' Ho Hx Hx'. cbn [g_live] in *.
    destruct (Hd b) as [Hi|Hi], (Hd b') as [Hi'|Hi'].
    + apply (E4 b b' x); auto. intros c c' C1 C2 C3 C4 C5 C6. eapply I3; eauto.
    + exfalso. eapply (Hmix b b'); eauto.
    + exfalso. eapply (Hmix b' b); eauto.
    + apply (I3 b b' j x); auto; apply E1; auto.
  - intros x (b & j & Hb & Ho & Hx) Hr. apply Hrb in Hr. cbn [g_live] in *.
    destruct (Nat.eq_dec j i) as [->|Hj].
    + destruct (E2 b Hb Ho) as [K|K].
      * apply (I4 x); [|exact Hr]. exists b, i. auto.
      * destruct (K x Hx) as [_ U]. contradiction.
    + apply (I4 x); [|exact Hr]. exists b, j. split; [apply E1; [congruence|exact Hb]|auto].
Qed.

Theorem invariant_step (st st' : gstate) : invariant adm st -> mstep adm st st' -> invariant adm st'.
Proof.
  intros HI Hs. pose proof HI as (I1 & I2 & I3 & I4). destruct Hs as [i t m' live' p' H1 H2|m' H1|a size al H1 H2|b0 H1 H2|i t H1 H2 H3 H4 H5|i t H1 H2].
  - eapply invariant_task; eauto.
  - split; [|split; [|split]]; auto. intros i t Ht. apply (on_track_frame st); auto; cbn [g_live g_mem].
    + tauto.
    + intros b x Hb Ho Hx. apply H1. left. exists b, i. auto.
    + intros r x Hr Hx. apply H1. right. exists i, t, r. auto.
  - destruct H2 as [K|(K1 & K2 & K3)]; [contradiction|]. split; [|split; [|split]]; cbn [g_live g_mem g_tasks].
    + intros i t Ht. apply (on_track_frame st); auto; cbn [g_live g_mem].
      intros b Ho. split; [intros [<-|Hb]; [discriminate|exact Hb]|intros Hb; right; exact Hb].
    + intros b i [<-|Hb] Ho; [discriminate|eauto].
    + intros b b' i x [<-|Hb] [<-|Hb'] Ho Hx Hx'; [discriminate|discriminate| |eauto].
      exfalso. destruct (K3 x Hx') as [N1 _]. apply N1. exists b. auto.
    + intros x (b & i & [<-|Hb] & Ho & Hx) Hr; [discriminate|]. apply (I4 x); [|exact Hr]. exists b, i. auto.
  - split; [|split; [|split]]; cbn [g_live g_mem g_tasks].
    + intros i t Ht. apply (on_track_frame st); auto; cbn [g_live g_mem].
      intros b Ho. rewrite in_remove_own. split; [tauto|]. intros Hb. split; [exact Hb|]. congruence.
    + intros b i Hb Ho. apply in_remove_own in Hb. destruct Hb. eauto.
    + intros b b' i x Hb Hb' Ho Hx Hx'. apply in_remove_own in Hb. apply in_remove_own in Hb'. destruct Hb, Hb'. eauto.
    + intros x (b & i & Hb & Ho & Hx) Hr. cbn [g_live] in Hb. apply in_remove_own in Hb. destruct Hb. apply (I4 x); [|exact Hr]. exists b, i. auto.
  - split; [|split; [|split]]; cbn [g_live g_mem g_tasks].
    + intros j t' Ht'. destruct (Nat.eq_dec j i) as [->|Hj].
      * rewrite set_task_same in Ht'. injection Ht' as <-. exists (tk_prog t), [], loc_new. cbn [g_mem g_live].
        split; [destruct t; exact H5|]. split; [constructor|]. split; [constructor|]. split; [intros; rewrite H4; reflexivity|].
        split; [|split]; cbn [lc_size loc_new g_live].
        -- intros b Hb Ho. exfalso. eapply H2; eauto.
        -- lia.
        -- intros k Hk. lia.
      * rewrite set_task_other in Ht' by exact Hj. apply (on_track_frame st); auto; cbn [g_live g_mem]; tauto.
    + intros b j Hb Ho. destruct (Nat.eq_dec j i) as [->|Hj]; [rewrite set_task_same; discriminate|]. rewrite set_task_other by exact Hj. eauto.
    + exact I3.
    + intros x Hx (j & t' & r & R1 & R2 & R3). cbn [g_tasks] in R1. destruct (Nat.eq_dec j i) as [->|Hj].
      * rewrite set_task_same in R1. injection R1 as <-. apply (H3 r x R2 R3). exact Hx.
      * rewrite set_task_other in R1 by exact Hj. apply (I4 x Hx). exists j, t', r. auto.
  - assert (Hin : forall b j, j <> i -> b_own b = Some j -> (In b (map (hand_over i) (g_live st)) <-> In b (g_live st))).
    { intros b j Hj Ho. split.
      - intros Hb. apply in_map_iff in Hb. destruct Hb as (c & Hc & Hb). unfold hand_over in Hc.
        destruct (b_own c) as [k|] eqn:Hk; [|subst; exact Hb]. destruct (Nat.eqb_spec k i) as [->|]; subst; [discriminate|exact Hb].
      - intros Hb. apply in_map_iff. exists b. split; [|exact Hb]. unfold hand_over. rewrite Ho. apply Nat.eqb_neq in Hj. rewrite Hj. reflexivity. }
    assert (Hno : forall b, In b (map (hand_over i) (g_live st)) -> b_own b <> Some i).
    { intros b Hb. apply in_map_iff in Hb. destruct Hb as (c & Hc & Hb). unfold hand_over in Hc. subst b.
      destruct (b_own c) as [k|] eqn:Hk; [|congruence]. destruct (Nat.eqb_spec k i); [discriminate|congruence]. }
    assert (Hwhere : forall b x, In b (map (hand_over i) (g_live st)) -> in_blk x b -> exists c, In c (g_live st) /\ in_blk x c /\ hand_over i c = b).
    { intros b x Hb Hx. apply in_map_iff in Hb. destruct Hb as (c & Hc & Hb). exists c. split; [exact Hb|]. split; [|exact Hc].
      subst b. unfold hand_over in Hx. destruct (b_own c) as [k|]; [|exact Hx]. destruct (Nat.eqb k i); exact Hx. }
    split; [|split; [|split]]; cbn [g_live g_mem g_tasks].
    + intros j t' Ht'. destruct (Nat.eq_dec j i) as [->|Hj]; [rewrite set_task_same in Ht'; discriminate|].
      rewrite set_task_other in Ht' by exact Hj. apply (on_track_frame st); auto; cbn [g_live g_mem].
      intros b Ho. apply (Hin b j Hj Ho).
    + intros b j Hb Ho. assert (Hj : j <> i) by (intros ->; exact (Hno b Hb Ho)). rewrite set_task_other by exact Hj.
      apply (I2 b); [|exact Ho]. apply (Hin b j Hj Ho). exact Hb.
    + intros b b' j x Hb Hb' Ho Hx Hx'. assert (Hj : j <> i) by (intros ->; exact (Hno b Hb Ho)).
      apply (Hin b j Hj Ho) in Hb. destruct (Hwhere b' x Hb' Hx') as (c & C1 & C2 & C3).
      assert (b = c) by (eapply I3; eauto). subst c. rewrite <- C3. unfold hand_over. rewrite Ho. apply Nat.eqb_neq in Hj. rewrite Hj. reflexivity.
    + intros x (b & j & Hb & Ho & Hx) (k & t' & r & R1 & R2 & R3). cbn [g_live g_tasks] in *.
      assert (Hj : j <> i) by (intros ->; exact (Hno b Hb Ho)).
      destruct (Nat.eq_dec k i) as [->|Hk]; [rewrite set_task_same in R1; discriminate|]. rewrite set_task_other in R1 by exact Hk.
      apply (I4 x); [exists b, j; split; [apply (Hin b j Hj Ho); exact Hb|auto]|]. exists k, t', r. auto.
Qed.

Theorem reachable_invariant (st : gstate) : reachable adm st -> invariant adm st.
Proof. induction 1 as [st H|st st' H IH Hs]; [apply invariant_start; exact H|eapply invariant_step; eauto]. Qed.
End Together.
