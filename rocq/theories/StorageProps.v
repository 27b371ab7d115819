(** * StorageProps: the storage properties in the form PropStorage.v states them. *)
From Verif Require Import Base Types Storage Spec ArithFacts StorageFacts StorageHist.
From Coq Require Import ZifyBool ZifyNat ZifyN.
Local Open Scope N_scope.

Section Util.
Context {P : Params}.

Lemma align_up_to_least {S} (s : S) p a :
  pow2 a -> p + a < umod -> exists r, align_up_to p a s = Ok r s /\ least_multiple p a r.
Proof.
  intros Ha Hp. exists (round_up p a). split; [apply align_up_to_ok; auto|].
  apply round_up_spec, pow2_pos, Ha.
Qed.

Lemma is_aligned_to_iff {S} (s : S) p a :
  pow2 a -> exists b, is_aligned_to p a s = Ok b s /\ (b = true <-> (a | p)).
Proof.
  intros Ha. exists (p mod a =? 0). split; [apply is_aligned_to_ok; auto|].
  apply mod_eqb_divide. pose proof (pow2_pos _ Ha). lia.
Qed.

Lemma divide_sub_r a b c : (a | b) -> (a | c) -> (a | b - c).
Proof. intros [x ->] [y ->]. exists (x - y). now rewrite N.mul_sub_distr_r. Qed.

Lemma amc_facts a :
  machine_ok -> pow2 a -> a < imax ->
  let c := imax - (a - 1) in
  0 < c /\ (a | c) /\ legal_layout c a /\ (forall c', legal_layout c' a -> c' <= c).
Proof.
  intros HM Ha Hlt c. pose proof (pow2_pos _ Ha).
  assert (Hd : (a | c)).
  { assert (E : c = imax + 1 - a) by (unfold c; lia). rewrite E.
    apply divide_sub_r; [|apply N.divide_refl]. apply pow2_lt_imax_divide; auto; lia. }
  ands; auto.
  - unfold c. lia.
  - split; auto. apply legal_layout_iff; auto; unfold c; lia.
  - intros c' [_ Hc']. apply legal_layout_iff in Hc'; auto. lia.
Qed.

Lemma amc_spec {S} (s : S) a :
  machine_ok -> a < umod ->
  match aligned_max_capacity a s with
  | Ok c s' => s' = s /\ pow2 a /\ a < imax /\ (a | c) /\ legal_layout c a /\
               (forall c', legal_layout c' a -> c' <= c)
  | Panic _ s' => s' = s /\ ~ (pow2 a /\ a < imax)
  | _ => False
  end.
Proof.
  intros HM Ha.
  destruct (is_pow2 a) eqn:Ep.
  - destruct (N.ltb_spec a imax) as [Hlt|Hge].
    + rewrite amc_ok by (auto; apply is_pow2_spec; auto).
      apply is_pow2_spec in Ep. ands; auto; apply (amc_facts a HM Ep Hlt).
    + unfold aligned_max_capacity, bind, assert_or, panics, ret.
      rewrite Ep. destruct (N.eqb_spec a 0); cbn [negb]; [split; [reflexivity|lia]|].
      destruct (N.ltb_spec a imax); [lia|]. split; [reflexivity|lia].
  - unfold aligned_max_capacity, bind, assert_or, panics, ret. rewrite Ep.
    assert (Hnp : ~ pow2 a) by (intros H; apply is_pow2_spec in H; congruence).
    destruct (N.eqb_spec a 0); cbn [negb]; (split; [reflexivity|tauto]).
Qed.

Lemma u32max_eq : u32_max = 4294967295. Proof. reflexivity. Qed.

Lemma imax4 : pW = 4 -> imax = 2147483647. Proof. unfold imax. intros ->. reflexivity. Qed.
Lemma imax8 : pW = 8 -> imax = 9223372036854775807. Proof. unfold imax. intros ->. reflexivity. Qed.

Lemma pow2_le_half a n : pow2 a -> a < 2 ^ n - 1 -> 0 < n -> a <= 2 ^ (n - 1).
Proof.
  intros [k ->] H Hn. destruct (N.le_gt_cases k (n - 1)) as [Hk|Hk].
  - apply N.pow_le_mono_r; lia.
  - assert (2 ^ n <= 2 ^ k) by (apply N.pow_le_mono_r; lia). lia.
Qed.

Lemma amuc_facts a c :
  machine_ok -> pow2 a -> a < u32_max -> a < imax ->
  c = (if 8 <=? pW then 2 ^ 32 else imax - (a - 1)) ->
  0 < c /\ (a | c) /\ legal_layout c a /\ (forall p, p < c -> p <= u32_max) /\
  (forall c', (a | c') -> legal_layout c' a -> (forall p, p < c' -> p <= u32_max) -> c' <= c).
Proof.
  intros HM Ha H1 H2 Hc. pose proof (pow2_pos _ Ha) as Hp.
  assert (Hc' : forall c', (forall p, p < c' -> p <= u32_max) -> c' <= 2 ^ 32).
  { intros c' Hx. destruct (N.le_gt_cases c' (2 ^ 32)); auto.
    specialize (Hx (2 ^ 32) ltac:(lia)). rewrite u32max_eq in Hx. change (2 ^ 32) with 4294967296 in Hx. lia. }
  destruct HM as [E|E]; rewrite E in Hc; cbn [N.leb N.compare Pos.compare Pos.compare_cont] in Hc.
  - destruct (amc_facts a (or_introl E) Ha H2) as (A & B & D & F). rewrite Hc.
    ands; auto. intros p Hp'. rewrite u32max_eq. rewrite (imax4 E) in *. lia.
  - assert (Hal : a <= 2 ^ 31) by (apply (pow2_le_half a 32 Ha); [exact H1|lia]).
    assert (Hd : (a | 2 ^ 32)).
    { apply pow2_divide; auto; [apply pow2_2pow|]. change (2 ^ 31) with 2147483648 in Hal.
      change (2 ^ 32) with 4294967296. lia. }
    subst c. ands; auto.
    + change (2 ^ 32) with 4294967296. lia.
    + split; auto. rewrite round_up_id by auto. rewrite (imax8 E).
      change (2 ^ 32) with 4294967296. lia.
    + intros p. rewrite u32max_eq. change (2 ^ 32) with 4294967296. lia.
Qed.

Lemma amuc_spec {S} (s : S) a :
  machine_ok -> a < umod ->
  match aligned_max_u32_capacity a s with
  | Ok c s' => s' = s /\ pow2 a /\ 0 < c /\ (a | c) /\ legal_layout c a /\
      (forall p, p < c -> p <= u32_max) /\
      (forall c', (a | c') -> legal_layout c' a -> (forall p, p < c' -> p <= u32_max) -> c' <= c)
  | Panic _ s' => s' = s /\ ~ (pow2 a /\ a < u32_max /\ a < imax)
  | _ => False
  end.
Proof.
  intros HM Ha.
  unfold aligned_max_u32_capacity, bind, assert_or, panics, ret.
  destruct (N.eqb_spec a 0) as [->|Hn0]; cbn [negb].
  { split; [reflexivity|]. intros (H & _). apply pow2_pos in H. lia. }
  destruct (is_pow2 a) eqn:Ep.
  2:{ split; [reflexivity|]. intros (H & _). apply is_pow2_spec in H. congruence. }
  apply is_pow2_spec in Ep.
  destruct (N.ltb_spec a u32_max) as [H1|H1]; cbn [andb].
  2:{ split; [reflexivity|]. lia. }
  destruct (N.ltb_spec a imax) as [H2|H2].
  2:{ split; [reflexivity|]. lia. }
  destruct (N.leb_spec 8 pW) as [H8|H8].
  - rewrite add_u_ok.
    + split; [reflexivity|]. split; [exact Ep|].
      apply amuc_facts; auto. destruct (N.leb_spec 8 pW); [reflexivity|lia].
    + unfold umod. destruct HM as [E|E]; rewrite E in *; [lia|]. reflexivity.
  - rewrite sub_u_ok by lia. rewrite sub_u_ok by lia.
    split; [reflexivity|]. split; [exact Ep|].
    apply amuc_facts; auto. destruct (N.leb_spec 8 pW); [lia|reflexivity].
Qed.

(** ASSERT_ALIGNMENTS_VALID accepts exactly the documented choices. *)
Lemma valid_iff {S} (s : S) :
  machine_ok -> SA < umod ->
  (assert_alignments_valid s = Ok tt s <-> consts_ok) /\
  (~ consts_ok -> exists e, assert_alignments_valid s = Panic e s).
Proof.
  intros HM HSA.
  assert (Hgo : consts_ok -> assert_alignments_valid s = Ok tt s).
  { intros HC. apply assert_alignments_valid_ok. split; auto. }
  assert (Hback : consts_ok \/ exists e, assert_alignments_valid s = Panic e s).
  { unfold assert_alignments_valid.
    Ltac pstep := match goal with
      | |- context[bind (assert_or ?p ?b) ?f ?s] =>
          let E := fresh "Q" in
          destruct b eqn:E;
          [rewrite (bind_ok _ _ _ tt s) by (apply assert_or_true; reflexivity)
          |right; exists p; apply bind_panic; apply assert_or_false; reflexivity]
      end.
    do 10 pstep.
    match goal with H : is_pow2 SA = true |- _ => apply is_pow2_spec in H end.
    match goal with H : is_pow2 MVA = true |- _ => apply is_pow2_spec in H end.
    match goal with H : is_pow2 VA = true |- _ => apply is_pow2_spec in H end.
    rewrite (bind_ok _ _ _ (imax - (SA - 1)) s) by (apply amc_ok; auto; lia).
    pstep. destruct (MAXC mod MVA =? 0) eqn:Qm.
    2:{ right. exists PAssert. apply assert_or_false. reflexivity. }
    left. unfold consts_ok. ands; auto; try lia.
    - apply mod_eqb_divide; [lia|exact Qm].
    - split; auto. apply legal_layout_iff; auto; lia. }
  split.
  - split; [|exact Hgo]. intros HE. destruct Hback as [|[e He]]; auto. congruence.
  - intros Hn. destruct Hback; tauto.
Qed.

End Util.

Section StorageProps.
Context {P : Params}.
Notation cap w := (s_cap (sw_s w)).
Notation pos w := (s_pos (sw_s w)).
Notation ptr w := (s_ptr (sw_s w)).
Notation buf w := (s_buf (sw_s w)).

Section Cfg.
Hypothesis C : cfg_ok.
Hypothesis HA : alloc_ok.

Ltac cfg :=
  pose proof (c_SA_pos C); pose proof (c_MVA_pos C); pose proof (c_VA_pos C);
  pose proof (c_VA_MVA C); pose proof (c_MVA_SA C); pose proof (c_MAXC C);
  pose proof (c_MVA_le_MAXC C); pose proof (c_sum C); pose proof (c_umod C);
  pose proof (c_SA_lt_imax C); pose proof (pW_vals (c_machine C)).

(** ** push *)
Lemma push_start_least p l : pow2 (l_align l) -> least_multiple p (N.max (l_align l) VA) (push_start p l).
Proof.
  intros Ha. apply round_up_spec. pose proof (pow2_pos _ Ha). lia.
Qed.

Lemma push_pushed w l n data :
  storage_ok w -> good_layout l -> l_size l * n <= imax ->
  (forall p w', push_slice l n data w = Ok p w' -> pushed w l n data p w') /\
  (forall e w', push_slice l n data w = Panic e w' ->
     e = PCapacity /\ 0 < l_size l /\ MAXC < push_end (pos w) l n).
Proof.
  intros Hok Hl Hn. cfg. unfold pushed.
  destruct (N.eqb_spec (l_size l) 0) as [E0|E0].
  - split; intros ? ? Hr; rewrite push_slice_zst in Hr by auto; inversion Hr; auto.
  - destruct (N.eq_dec n 0) as [->|Hn0].
    + destruct (N.eq_dec (cap w) 0) as [Ec|Ec].
      * destruct (N.eq_dec (l_align l) 1) as [Ea|Ea].
        -- assert (Hx : 0 < 0 \/ 0 < cap w \/ l_align l = 1) by auto.
           pose proof (push_slice_spec C HA w l 0 data Hok Hl ltac:(lia) Hn Hx) as Hs.
           split; intros ? ? Hr; rewrite Hr in Hs.
           ++ destruct Hs as (-> & -> & S1 & S2 & S3 & S4 & S5 & S6). ands; auto.
              ** apply push_start_align; auto. apply Hl.
              ** apply push_start_least, Hl.
              ** apply round_up_spec. lia.
           ++ ands; try apply Hs. lia.
        -- split; intros ? ? Hr; rewrite empty_push_UB in Hr; auto; try discriminate; try lia.
           all: destruct Hl as (Ha & _); pose proof (pow2_pos _ Ha); lia.
      * assert (Hx : 0 < 0 \/ 0 < cap w \/ l_align l = 1) by lia.
        pose proof (push_slice_spec C HA w l 0 data Hok Hl ltac:(lia) Hn Hx) as Hs.
        split; intros ? ? Hr; rewrite Hr in Hs.
        -- destruct Hs as (-> & -> & S1 & S2 & S3 & S4 & S5 & S6). ands; auto.
           ** apply push_start_align; auto. apply Hl.
           ** apply push_start_least, Hl.
           ** apply round_up_spec. lia.
        -- ands; try apply Hs. lia.
    + assert (Hx : 0 < n \/ 0 < cap w \/ l_align l = 1) by lia.
      pose proof (push_slice_spec C HA w l n data Hok Hl ltac:(lia) Hn Hx) as Hs.
      split; intros ? ? Hr; rewrite Hr in Hs.
      -- destruct Hs as (-> & -> & S1 & S2 & S3 & S4 & S5 & S6). ands; auto.
         ** apply push_start_align; auto. apply Hl.
         ** apply push_start_least, Hl.
         ** apply round_up_spec. lia.
      -- ands; try apply Hs. lia.
Qed.

Lemma push_total w l n data :
  storage_ok w -> good_layout l -> l_size l * n <= imax -> 0 < n ->
  match push_slice l n data w with
  | Ok _ _ => l_size l = 0 \/ push_end (pos w) l n <= MAXC
  | Panic e _ => e = PCapacity /\ 0 < l_size l /\ MAXC < push_end (pos w) l n
  | Abort => alloc_failed
  | UB | OutOfFuel => False
  end.
Proof.
  intros Hok Hl Hn Hpos. destruct (N.eqb_spec (l_size l) 0) as [E0|E0].
  - rewrite push_slice_zst by auto. auto.
  - pose proof (push_slice_spec C HA w l n data Hok Hl ltac:(lia) Hn ltac:(auto)) as Hs.
    destruct (push_slice l n data w); auto.
    + right. apply Hs.
    + ands; try apply Hs. lia.
Qed.

(** ** reserve *)
Lemma reserve_spec w n :
  storage_ok w -> n < umod ->
  match reserve n w with
  | Ok _ w' =>
      storage_ok w' /\ pos w' = pos w /\ n <= cap w' - pos w' /\
      (forall i, i < cap w -> buf w' i = buf w i) /\
      (n <= cap w - pos w -> w' = w) /\
      (cap w - pos w < n -> pos w + n <= MAXC /\ exists g, least_pow2 (pos w + n) g /\
         cap w' = N.max (N.min g MAXC) (if cap w =? 0 then MVA else 0))
  | Panic e w' => e = PCapacity /\ w' = w /\ MAXC < pos w + n
  | Abort => alloc_failed
  | UB | OutOfFuel => False
  end.
Proof.
  intros Hok Hn. rewrite reserve_eq by auto.
  pose proof (grow_to_spec C HA w (pos w + n) Hok) as H.
  pose proof (ok_pos_le w Hok).
  destruct (grow_to (pos w + n) w) as [[] w'|e w'| | |]; auto.
  destruct H as (A & B & D & F & G & _ & I & J). ands; auto; try lia.
  - intros. apply I. lia.
  - intros. split; [lia|]. exists (npot (pos w + n)). split.
    + apply npot_spec. lia.
    + apply J. lia.
Qed.

(** ** clear *)
Lemma clear_spec w :
  storage_ok w ->
  exists w', clear w = Ok tt w' /\ pos w' = 0 /\ cap w' = cap w /\ ptr w' = ptr w /\
    buf w' = buf w /\ sw_calls w' = sw_calls w /\ sw_trace w' = sw_trace w /\ storage_ok w'.
Proof.
  intros Hok. exists (at_pos w 0). ands; auto.
  - apply set_pos_eq; auto; [lia|apply N.divide_0_r].
  - apply ok_at_pos; auto; [lia|apply N.divide_0_r].
Qed.

Lemma clear_positions w w' os rs w1 :
  storage_ok w -> clear w = Ok tt w' -> Forall op_valid os -> Forall no_overflow os ->
  run_seq os w' = Ok rs w1 -> rs = positions 0 os.
Proof.
  intros Hok Hc Hv Hn Hr. destruct (clear_spec w Hok) as (w2 & E & E0 & _ & _ & _ & _ & _ & Hok').
  rewrite E in Hc. inversion Hc; subst. rewrite <- E0. eapply run_seq_positions; eauto.
Qed.

(** ** Histories from a constructor *)
Lemma start_ok c w0 : c < umod -> with_capacity c sw_new = Ok tt w0 -> storage_ok w0 /\ extends sw_new w0.
Proof.
  intros Hc Hw. pose proof (with_capacity_spec C HA c Hc) as H. rewrite Hw in H. tauto.
Qed.

Lemma history_ok c os w0 w :
  c < umod -> with_capacity c sw_new = Ok tt w0 -> Forall op_valid os ->
  run_ops os w0 = Ok tt w -> storage_ok w.
Proof.
  intros Hc Hw Hv Hr. destruct (start_ok c w0 Hc Hw) as [Hok _].
  pose proof (run_ops_spec C HA os w0 Hok Hv) as H. rewrite Hr in H. apply H.
Qed.

Lemma history_protocol c os w0 w :
  c < umod -> with_capacity c sw_new = Ok tt w0 -> Forall op_valid os ->
  run_ops os w0 = Ok tt w ->
  protocol None (sw_trace w) (block w) /\
  exists w', drop_store w = Ok tt w' /\ protocol None (sw_trace w') None.
Proof.
  intros Hc Hw Hv Hr. destruct (start_ok c w0 Hc Hw) as [Hok He].
  pose proof (run_ops_spec C HA os w0 Hok Hv) as H. rewrite Hr in H.
  destruct H as (Hok' & He' & _).
  pose proof (extends_trans _ _ _ He He') as Hx. destruct Hx as (evs & Ht & Hp).
  cbn in Ht, Hp. change (block sw_new) with (@None (N * N)) in Hp.
  split; [rewrite Ht; exact Hp|].
  destruct (drop_spec C w Hok') as (w' & Hd & evs' & Ht' & Hp').
  exists w'. split; auto. rewrite Ht', Ht. eapply protocol_app; eauto.
Qed.

Lemma history_ub c os w0 :
  c < umod -> with_capacity c sw_new = Ok tt w0 -> Forall op_valid os ->
  match run_ops os w0 with
  | Ok _ _ => True
  | Abort => alloc_failed
  | UB => exists os1 o os2 w1, os = os1 ++ o :: os2 /\ run_ops os1 w0 = Ok tt w1 /\ empty_slice_push w1 o
  | Panic _ _ | OutOfFuel => False
  end.
Proof.
  intros Hc Hw Hv. destruct (start_ok c w0 Hc Hw) as [Hok He].
  pose proof (run_ops_spec C HA os w0 Hok Hv) as H.
  destruct (run_ops os w0); auto.
Qed.

Lemma history_no_ub c os w0 :
  c < umod -> with_capacity c sw_new = Ok tt w0 -> Forall op_valid os ->
  (forall l n d, In (OPushSlice l n d) os -> 0 < n \/ l_size l = 0 \/ l_align l = 1) ->
  run_ops os w0 <> UB.
Proof.
  intros Hc Hw Hv Hne Hub. pose proof (history_ub c os w0 Hc Hw Hv) as H. rewrite Hub in H.
  destruct H as (os1 & o & os2 & w1 & -> & _ & He).
  destruct o as [| l n d | | | | | | | | |]; cbn in He; try contradiction.
  destruct (Hne l n d) as [|[|]]; try lia. apply in_or_app. right. left. reflexivity.
Qed.

(** ** Clean capacity failures *)
Lemma some_pos_panic (m : M sw N) w e w' : some_pos m w = Panic e w' -> m w = Panic e w'.
Proof. unfold some_pos, bind, ret. destruct (m w); intros H; inversion H; auto. Qed.
Lemma no_pos_panic (m : M sw unit) w e w' : no_pos m w = Panic e w' -> m w = Panic e w'.
Proof. unfold no_pos, bind, ret. destruct (m w); intros H; inversion H; auto. Qed.

Definition clean (w w' : sw) : Prop :=
  exists p, w' = at_pos w p /\ pos w <= p /\ p <= cap w /\ (VA | p).

Lemma clean_ok w w' : storage_ok w -> clean w w' ->
  storage_ok w' /\ cap w' = cap w /\ ptr w' = ptr w /\ buf w' = buf w /\
  sw_trace w' = sw_trace w /\ pos w <= pos w'.
Proof.
  intros Hok (p & -> & A & B & D). ands; auto. apply ok_at_pos; auto.
Qed.

Lemma push_slice_clean w l n d w' e :
  storage_ok w -> good_layout l -> l_size l * n <= imax ->
  push_slice l n d w = Panic e w' -> clean w w'.
Proof.
  intros Hok Hl Hn Hr. pose proof (push_pushed w l n d Hok Hl Hn) as [_ Hp].
  destruct (Hp _ _ Hr) as (-> & Hsz & _).
  destruct (N.eq_dec n 0) as [->|].
  1: destruct (N.eq_dec (cap w) 0) as [Ec|Ec].
  1: destruct (N.eq_dec (l_align l) 1) as [Ea|Ea].
  2:{ rewrite empty_push_UB in Hr; auto; try discriminate.
      destruct Hl as (Ha & _). pose proof (pow2_pos _ Ha). lia. }
  all: pose proof (push_slice_spec C HA w l _ d Hok Hl Hsz Hn ltac:(lia)) as Hs; rewrite Hr in Hs;
    destruct Hs as (_ & -> & Hs & _); exists (push_start (pos w) l);
    pose proof Hl as (Ha & _ & _ & Hm); ands; auto;
    [apply push_start_ge; auto|apply (align_for_eq C w l Ha Hm Hok)|apply push_start_VA; auto].
Qed.

Lemma push_empty_clean w l n w' :
  storage_ok w -> good_layout l -> n < umod ->
  push_empty_slice l n w = Panic PCapacity w' -> clean w w'.
Proof.
  intros Hok Hl Hn Hr. pose proof Hl as (Ha & _ & _ & Hm).
  destruct (align_for_eq C w l Ha Hm Hok) as [Haf Hst].
  destruct (mul_u_cases C (l_size l) n) as [(sz & Hsz & Hmul & _)|(_ & _ & Hmul)].
  - rewrite (push_empty_slice_eq C HA w l n sz Hok Hl Hsz Hmul) in Hr.
    unfold bind, grow_to in Hr.
    repeat match type of Hr with context[if ?b then _ else _] => destruct b end;
      try discriminate; inversion Hr.
    exists (push_start (pos w) l). ands; auto; [apply push_start_ge; auto|apply push_start_VA; auto].
  - unfold push_empty_slice in Hr. rewrite (bind_ok _ _ _ _ _ Haf) in Hr.
    rewrite (bind_panic _ _ _ _ _ (Hmul _)) in Hr. discriminate.
Qed.

Lemma op_clean w o w' :
  storage_ok w -> op_valid o -> run_op o w = Panic PCapacity w' -> clean w w'.
Proof.
  intros Hok Hv Hr.
  destruct o as [l d|l n d|n d|l|l n|n|l|l| | |]; cbn [run_op op_valid] in *.
  - apply some_pos_panic in Hr. eapply (push_slice_clean w l 1); eauto. destruct Hv; lia.
  - apply some_pos_panic in Hr. destruct Hv. eapply push_slice_clean; eauto.
  - apply some_pos_panic in Hr. eapply (push_slice_clean w u8_layout); eauto.
    + apply u8_good; auto.
    + unfold u8_layout; cbn [l_size]; lia.
  - apply some_pos_panic in Hr. eapply (push_empty_clean w l 1); eauto. 
    pose proof (imax_big (c_machine C)). cfg. lia.
  - apply some_pos_panic in Hr. destruct Hv. eapply push_empty_clean; eauto.
  - apply no_pos_panic in Hr. rewrite reserve_eq in Hr by auto.
    pose proof (grow_to_spec C HA w (pos w + n) Hok) as H. rewrite Hr in H.
    destruct H as (_ & -> & _). exists (pos w). rewrite at_pos_same. ands; auto; try lia;
    [apply ok_pos_le; auto|apply ok_pos_mul; auto].
  - apply no_pos_panic in Hr. destruct Hv as (Ha & _ & _ & Hm).
    destruct (align_for_eq C w l Ha Hm Hok) as [Haf _]. congruence.
  - apply no_pos_panic in Hr. unfold align_after in Hr. destruct (0 <? _); [|discriminate].
    unfold align_after_any in Hr. cfg.
    destruct (align_eq C w VA (c_VA C)) as [E _]; auto; try lia; try congruence.
    + apply ok_cap_mul; auto. + apply ok_cap_le; auto. + apply ok_pos_le; auto.
  - apply no_pos_panic in Hr. unfold align_after_any in Hr. cfg.
    destruct (align_eq C w VA (c_VA C)) as [E _]; auto; try lia; try congruence.
    + apply ok_cap_mul; auto. + apply ok_cap_le; auto. + apply ok_pos_le; auto.
  - apply no_pos_panic in Hr. destruct (clear_spec w Hok) as (w2 & E & _). congruence.
  - apply no_pos_panic in Hr. pose proof (shrink_spec C HA w Hok) as H. rewrite Hr in H. contradiction.
Qed.

Lemma op_clean_full w o w' :
  storage_ok w -> op_valid o -> run_op o w = Panic PCapacity w' ->
  storage_ok w' /\ cap w' = cap w /\ ptr w' = ptr w /\ buf w' = buf w /\
  sw_trace w' = sw_trace w /\ pos w <= pos w'.
Proof. intros. apply clean_ok; auto. eapply op_clean; eauto. Qed.

(** ** push_empty *)
Lemma push_empty_spec w l n :
  storage_ok w -> good_layout l -> l_size l * n < umod ->
  (dbg = true -> (VA | l_size l * n)) ->
  match push_empty_slice l n w with
  | Ok p w' =>
      (l_align l | p) /\ pos w <= p /\ p + l_size l * n <= pos w' /\ storage_ok w' /\
      (forall i, i < pos w -> buf w' i = buf w i)
  | Panic e w' => e = PCapacity /\ MAXC < push_start (pos w) l + l_size l * n
  | Abort => alloc_failed
  | UB | OutOfFuel => False
  end.
Proof.
  intros Hok Hl Hsz Hd. pose proof Hl as (Ha & Hls & _ & Hm). cfg.
  destruct (align_for_eq C w l Ha Hm Hok) as [Haf Hst].
  rewrite (push_empty_slice_eq C HA w l n (l_size l * n) Hok Hl Hsz).
  2:{ intros. apply mul_u_ok; auto. }
  set (st := push_start (pos w) l) in *.
  assert (Hok1 : storage_ok (at_pos w st)).
  { apply ok_at_pos; auto. apply push_start_VA; auto. }
  pose proof (grow_to_spec C HA (at_pos w st) (st + l_size l * n) Hok1) as Hg.
  unfold bind. destruct (grow_to (st + l_size l * n) (at_pos w st)) as [[] w1|e w1| | |]; auto.
  2:{ tauto. }
  destruct Hg as (G1 & G2 & G3 & G4 & G5 & _). cbn in G2, G5.
  assert (Hsp : set_pos_panics (st + l_size l * n) = false).
  { unfold set_pos_panics. destruct dbg; auto. cbn [andb].
    assert ((st + l_size l * n) mod VA = 0) as ->.
    { apply divide_mod; [lia|]. apply N.divide_add_r; [apply push_start_VA; auto|auto]. }
    reflexivity. }
  rewrite Hsp.
  assert (Hru : st + l_size l * n <= round_up (st + l_size l * n) VA) by (apply round_up_ge; lia).
  assert (Hend : push_end (pos w) l n <= cap w1).
  { apply push_end_le_mul; auto. apply ok_cap_mul; auto. }
  unfold push_end in Hend. fold st in Hend.
  assert (Hz : (if 0 <? l_size l mod VA then round_up (st + l_size l * n) VA else st + l_size l * n)
               = round_up (st + l_size l * n) VA).
  { destruct (N.ltb_spec 0 (l_size l mod VA)); auto.
    symmetry. apply round_up_id; [lia|]. apply N.divide_add_r; [apply push_start_VA; auto|].
    apply N.divide_mul_l. apply divide_mod; lia. }
  rewrite Hz. cbn. ands; auto.
  - apply push_start_align; auto.
  - apply push_start_ge; auto.
  - apply ok_at_pos; auto. apply round_up_divide.
  - intros i Hi. apply G5. pose proof (ok_pos_le w Hok). lia.
Qed.

(** ** write and read *)
Lemma write_exact w p l n data :
  storage_ok w -> good_layout l -> (l_align l | p) -> p + l_size l * n <= cap w ->
  (0 < cap w \/ l_size l = 0) ->
  exists w', write_slice p l n data w = Ok tt w' /\
    pos w' = pos w /\ cap w' = cap w /\ ptr w' = ptr w /\ sw_calls w' = sw_calls w /\
    sw_trace w' = sw_trace w /\ storage_ok w' /\
    (forall i, p <= i -> i < p + l_size l * n -> buf w' i = data (i - p)) /\
    (forall i, i < p \/ p + l_size l * n <= i -> buf w' i = buf w i).
Proof.
  intros Hok Hl Hp Hin Hc. cfg. pose proof (ok_cap_le w Hok).
  assert (Hx : l_size l = 0 \/ (0 < cap w /\ (SA | ptr w)) \/ (l_align l | ptr w)).
  { destruct Hc; auto. right. left. split; auto. apply Hok; auto. }
  rewrite (write_slice_eq C w p l n data); auto; [|lia].
  eexists. split; [reflexivity|].
  destruct (N.eqb_spec (l_size l) 0) as [E|E].
  - rewrite E. ands; auto. intros; lia.
  - cbn. ands; auto.
    + intros i H1' H2'. unfold blit. destruct (N.leb_spec p i), (N.ltb_spec i (p + l_size l * n)); try lia. reflexivity.
    + intros i H1'. unfold blit. destruct (N.leb_spec p i), (N.ltb_spec i (p + l_size l * n)); try lia; reflexivity.
Qed.

Lemma read_exact w p l :
  storage_ok w -> good_layout l -> (l_align l | p) -> p + l_size l <= pos w -> 0 < cap w ->
  exists c, read p l w = Ok c w /\ forall i, i < l_size l -> c i = buf w (p + i).
Proof.
  intros Hok (Ha & _ & _ & Hm) Hp Hin Hc. cfg.
  pose proof (ok_cap_le w Hok). pose proof (ok_pos_le w Hok).
  unfold read.
  rewrite (bind_ok _ _ _ tt w).
  2:{ apply dassert_true. erewrite bind_ok by (apply add_u_ok; lia).
      unfold bind, get_pos, gets, ret. f_equal. apply N.leb_le. lia. }
  rewrite (bind_ok _ _ _ tt w).
  2:{ apply dassert_true. apply is_aligned_to_true; auto. }
  destruct (N.leb_spec (p + l_size l) (cap w)); [|lia].
  assert (Hal : (ptr w + p) mod l_align l = 0).
  { apply divide_mod; [pose proof (pow2_pos _ Ha); lia|]. apply N.divide_add_r; auto.
    eapply divide_trans; [|apply Hok; auto].
    apply pow2_divide; auto; [apply c_SA; auto|]. pose proof (c_MVA_SA C). lia. }
  rewrite Hal. cbn [N.eqb andb]. eexists. split; [reflexivity|].
  intros i Hi. cbv beta. destruct (N.ltb_spec i (l_size l)) as [_|Hbad]; [reflexivity|exfalso; lia].
Qed.

Lemma write_then_read w p l data :
  storage_ok w -> good_layout l -> (l_align l | p) -> p + l_size l <= pos w -> 0 < cap w ->
  exists w' c, write p l data w = Ok tt w' /\ read p l w' = Ok c w' /\
    forall i, i < l_size l -> c i = data i.
Proof.
  intros Hok Hl Hp Hin Hc. pose proof (ok_pos_le w Hok).
  destruct (write_exact w p l 1 data Hok Hl Hp ltac:(lia) (or_introl Hc))
    as (w' & E & A & B & D & _ & _ & F & G & _).
  destruct (read_exact w' p l F Hl Hp ltac:(lia) ltac:(lia)) as (c & Er & Hc').
  exists w', c. ands; auto. intros i Hi. rewrite Hc' by auto. rewrite G by lia. f_equal. lia.
Qed.

End Cfg.
End StorageProps.
