(** * PropUnsafe: the contracts of the unsafe storage methods (C62, C63).

    The calls, [contract], [does] and [misaligned] are in Unsafe.v. *)
From Verif Require Import Base Types Storage Spec Unsafe ArithFacts StorageFacts StorageHist StorageProps PropStorage.
From Coq Require Import ZifyBool ZifyNat ZifyN.
Local Open Scope N_scope.

Section Unsafe.
Context {P : Params}.
Notation cap w := (s_cap (sw_s w)).
Notation pos w := (s_pos (sw_s w)).
Notation ptr w := (s_ptr (sw_s w)).
Notation buf w := (s_buf (sw_s w)).

Lemma dassert_dbg {S} (c : M S bool) (s : S) :
  c s = Ok false s -> dbg = true -> dassert c s = Panic PDebugAssert s.
Proof. intros H D. unfold dassert. rewrite D. unfold bind. rewrite H. reflexivity. Qed.

Lemma blit_in b p n d i : i < n -> blit b p n d (p + i) = d i.
Proof. intros H. unfold blit. destruct (N.leb_spec p (p + i)), (N.ltb_spec (p + i) (p + n)); try lia. cbn [andb]. f_equal. lia. Qed.
Lemma blit_out b p n d i : i < p \/ p + n <= i -> blit b p n d i = b i.
Proof. intros H. unfold blit. destruct (N.leb_spec p i), (N.ltb_spec i (p + n)); try lia; reflexivity. Qed.

Definition addr_ok (a : N) (l : layout) : bool := a mod l_align l =? 0.
Lemma addr_ok_spec a l : pow2 (l_align l) -> addr_ok a l = true <-> (l_align l | a).
Proof. intros H. apply mod_eqb_divide. pose proof (pow2_pos _ H). lia. Qed.

Section Cfg.
Hypothesis C : cfg_ok.
Ltac cfg :=
  pose proof (c_SA_pos C); pose proof (c_MVA_pos C); pose proof (c_VA_pos C);
  pose proof (c_VA_MVA C); pose proof (c_MVA_SA C); pose proof (c_MAXC C);
  pose proof (c_MVA_le_MAXC C); pose proof (c_sum C); pose proof (c_umod C);
  pose proof (c_SA_lt_imax C).


Lemma cap_umod w : storage_ok w -> cap w < umod.
Proof. intros H. pose proof (ok_cap_le w H). pose proof (c_MAXC_bound C). pose proof (c_umod C). lia. Qed.

Lemma write_full w p l n d : storage_ok w -> any_layout l -> l_size l * n <= imax ->
  p + l_size l * n <= cap w -> (l_align l | p) ->
  write_slice p l n d w =
    if l_size l =? 0 then Ok tt w
    else if addr_ok (ptr w + p) l then Ok tt (placed w p (l_size l * n) d (pos w)) else UB.
Proof.
  intros Hok (Ha & Hd & Hs) Hn Hin Hp. pose proof (cap_umod w Hok). pose proof (c_umod C).
  unfold write_slice. erewrite bind_ok by reflexivity.
  rewrite (bind_ok _ _ _ tt w) by (apply dassert_true; unfold ret; do 2 f_equal; lia).
  rewrite (bind_ok _ _ _ tt w).
  2:{ apply dassert_true. erewrite bind_ok by (apply sub_u_ok; lia). erewrite bind_ok by (apply mul_u_ok; lia).
      unfold ret; do 2 f_equal; lia. }
  rewrite (bind_ok _ _ _ tt w) by (apply dassert_true; apply is_aligned_to_true; assumption).
  destruct (l_size l =? 0); [reflexivity|].
  rewrite (proj2 (N.leb_le _ _)) by lia. unfold addr_ok. cbn [andb].
  destruct ((ptr w + p) mod l_align l =? 0); reflexivity.
Qed.

Lemma push_full w l n d : storage_ok w -> any_layout l -> l_size l * n <= imax ->
  pos w + l_size l * n <= cap w -> (l_align l | pos w) ->
  push_slice_unchecked l n d (l_size l * n) w =
    if l_size l =? 0 then Ok tt w
    else if addr_ok (ptr w + pos w) l
    then Ok tt (placed w (pos w) (l_size l * n) d (pos w + l_size l * n)) else UB.
Proof.
  intros Hok Hl Hn Hin Hp. pose proof (cap_umod w Hok). pose proof (c_umod C). pose proof Hl as (Ha & _).
  unfold push_slice_unchecked.
  rewrite (bind_ok _ _ _ tt w).
  2:{ apply dassert_true. unfold bind, get_cap, get_pos, gets. rewrite sub_u_ok by lia. unfold ret. do 2 f_equal. lia. }
  rewrite (bind_ok _ _ _ tt w).
  2:{ apply dassert_true. erewrite bind_ok by (apply mul_u_ok; lia). unfold ret. do 2 f_equal. lia. }
  rewrite (bind_ok _ _ _ tt w).
  2:{ apply dassert_true. erewrite bind_ok by reflexivity. apply is_aligned_to_true; assumption. }
  destruct (N.eqb_spec (l_size l) 0) as [E|E]; [reflexivity|].
  erewrite bind_ok by reflexivity. unfold bind at 1. rewrite write_full by assumption.
  destruct (N.eqb_spec (l_size l) 0) as [|_]; [contradiction|].
  destruct (addr_ok (ptr w + pos w) l); [|reflexivity].
  erewrite bind_ok by reflexivity. cbn [placed with_store sw_s s_pos].
  erewrite bind_ok by (apply add_u_ok; lia). reflexivity.
Qed.

Lemma read_full w p l : storage_ok w -> any_layout l ->
  p + l_size l <= pos w -> (l_align l | p) ->
  read p l w = if addr_ok (ptr w + p) l
    then Ok (fun i => if i <? l_size l then buf w (p + i) else None) w else UB.
Proof.
  intros Hok (Ha & Hd & Hs) Hin Hp. pose proof (cap_umod w Hok). pose proof (ok_pos_le w Hok).
  unfold read. rewrite (bind_ok _ _ _ tt w).
  2:{ apply dassert_true. erewrite bind_ok by (apply add_u_ok; lia).
      unfold bind, get_pos, gets, ret. do 2 f_equal. lia. }
  rewrite (bind_ok _ _ _ tt w) by (apply dassert_true; apply is_aligned_to_true; assumption).
  rewrite (proj2 (N.leb_le _ _)) by lia. unfold addr_ok. cbn [andb].
  destruct ((ptr w + p) mod l_align l =? 0); reflexivity.
Qed.

(** ** C62: the documented contracts suffice, up to alignment *)

(** An unsafe call that meets its contract does what it says and keeps the storage in order
    (push_slice_unchecked once align_after has been called), unless it accesses a
    misaligned address, which is undefined behaviour. *)
Theorem C62_contracts : forall w c,
  storage_ok w -> args_ok c -> contract w c ->
  (run_ucall c w = UB <-> misaligned w c) /\
  (~ misaligned w c -> exists r w', run_ucall c w = Ok r w' /\ does w c r w' /\
     match c with
     | CPush l _ _ _ => exists w2, align_after l w' = Ok tt w2 /\ storage_ok w2 /\
         least_multiple (pos w') VA (pos w2) /\ ptr w2 = ptr w' /\ cap w2 = cap w' /\
         sw_calls w2 = sw_calls w' /\ sw_trace w2 = sw_trace w' /\ (forall i, buf w2 i = buf w' i)
     | _ => storage_ok w'
     end).
Proof.
  intros w c Hok Ha Hc. pose proof (c_VA_pos C). pose proof (ok_pos_le w Hok).
  destruct c as [n|l n d size|a|p l n d|p l|p]; cbn [args_ok contract run_ucall misaligned] in *; unfold does.
  - destruct Hc as [H1 H2]. rewrite (bind_ok _ _ _ tt (at_pos w n)) by (apply (set_pos_eq C); assumption).
    split; [split; [discriminate|tauto]|]. intros _. exists RUnit, (at_pos w n). split; [reflexivity|].
    split; [unfold does; cbn; ands; auto|]. apply ok_at_pos; assumption.
  - destruct Hc as (H1 & -> & H3). destruct Ha as (Hl & Hn & _). pose proof Hl as (Hp & _).
    unfold bind. rewrite push_full by assumption.
    destruct (N.eqb_spec (l_size l) 0) as [E|E].
    + split; [split; [discriminate|intros [? _]; contradiction]|]. intros _.
      exists RUnit, w. split; [reflexivity|]. rewrite E. split.
      * ands; auto; try lia.
      * exists w. unfold align_after. rewrite E. rewrite N.mod_0_l by lia. cbn [N.ltb N.compare].
        split; [reflexivity|]. split; [exact Hok|]. split; [|ands; auto].
        pose proof (round_up_spec (pos w) VA ltac:(lia)) as Hr.
        rewrite round_up_id in Hr by (try apply ok_pos_mul; assumption || lia). exact Hr.
    + destruct (addr_ok (ptr w + pos w) l) eqn:Ea.
      * apply addr_ok_spec in Ea; [|exact Hp].
        split; [split; [discriminate|intros [_ Hbad]; contradiction]|]. intros _.
        eexists RUnit, _. split; [reflexivity|]. split.
        -- cbn. ands; auto.
           ++ intros i Hi. apply blit_in. exact Hi.
           ++ intros i Hi. apply blit_out. exact Hi.
        -- set (w' := placed w (pos w) (l_size l * n) d (pos w + l_size l * n)).
           assert (Hle : round_up (pos w') VA <= cap w).
           { apply round_up_least; [lia| |cbn; lia].
             eapply divide_trans; [apply (c_VA_dvd_MVA C)|apply ok_cap_mul; exact Hok]. }
           assert (HA2 : align_after l w' = Ok tt (at_pos w' (round_up (pos w') VA))).
           { apply (align_after_eq C w' l n); cbn; try lia.
             - apply ok_cap_mul; exact Hok.
             - apply ok_cap_le; exact Hok.
             - exists (pos w). split; [apply ok_pos_mul; exact Hok|reflexivity]. }
           exists (at_pos w' (round_up (pos w') VA)). split; [exact HA2|].
           split.
           { assert (Hok' : storage_ok (placed w (pos w) (l_size l * n) d (pos w))) by exact Hok.
             apply (ok_at_pos _ (round_up (pos w') VA)) in Hok'; [exact Hok'|exact Hle|].
             apply round_up_divide. }
           split; [apply round_up_spec; lia|ands; auto].
      * split; [split; [intros _|reflexivity]|].
        -- split; [exact E|]. intros Hbad. apply addr_ok_spec in Hbad; [|exact Hp]. congruence.
        -- intros Hbad. exfalso. apply Hbad. split; [exact E|]. intros Hb2. apply addr_ok_spec in Hb2; [|exact Hp]. congruence.
  - destruct Hc as (H1 & H2 & H3). pose proof (pow2_pos a H3).
    destruct (align_eq C w a H3 H1 H2 (ok_cap_mul w Hok) (ok_cap_le w Hok) ltac:(assumption)) as [E1 E2].
    rewrite (bind_ok _ _ _ tt _ E1).
    split; [split; [discriminate|tauto]|]. intros _. eexists RUnit, _. split; [reflexivity|].
    split; [cbn; ands; auto; apply round_up_spec; lia|].
    apply ok_at_pos; [exact Hok|exact E2|].
    eapply divide_trans; [|apply round_up_divide]. apply pow2_divide; auto. apply (c_VA C).
  - destruct Hc as (H1 & H2). destruct Ha as (Hl & Hn & _). pose proof Hl as (Hp & _).
    unfold bind. rewrite write_full by assumption.
    destruct (N.eqb_spec (l_size l) 0) as [E|E].
    + split; [split; [discriminate|intros [? _]; contradiction]|]. intros _.
      exists RUnit, w. split; [reflexivity|]. rewrite E. split; [|exact Hok]. ands; auto; intros; lia.
    + destruct (addr_ok (ptr w + p) l) eqn:Ea.
      * apply addr_ok_spec in Ea; [|exact Hp].
        split; [split; [discriminate|intros [_ Hbad]; contradiction]|]. intros _.
        eexists RUnit, _. split; [reflexivity|]. split; [|exact Hok].
        cbn. ands; auto.
        -- intros i Hi. apply blit_in. exact Hi.
        -- intros i Hi. apply blit_out. exact Hi.
      * split; [split; [intros _|reflexivity]|].
        -- split; [exact E|]. intros Hbad. apply addr_ok_spec in Hbad; [|exact Hp]. congruence.
        -- intros Hbad. exfalso. apply Hbad. split; [exact E|]. intros Hb2. apply addr_ok_spec in Hb2; [|exact Hp]. congruence.
  - destruct Hc as (H1 & H2). destruct Ha as (Hl & _). pose proof Hl as (Hp & _).
    unfold bind. rewrite read_full by assumption.
    destruct (addr_ok (ptr w + p) l) eqn:Ea.
    + apply addr_ok_spec in Ea; [|exact Hp].
      split; [split; [discriminate|intros Hbad; contradiction]|]. intros _.
      eexists (RCells _), w. split; [reflexivity|]. split; [|exact Hok].
      ands; auto. eexists. split; [reflexivity|]. intros i Hi. cbv beta.
      destruct (N.ltb_spec i (l_size l)); [reflexivity|lia].
    + split; [split; [intros _|reflexivity]|].
      * intros Hbad. apply addr_ok_spec in Hbad; [|exact Hp]. congruence.
      * intros Hbad. exfalso. apply Hbad. intros Hb2. apply addr_ok_spec in Hb2; [|exact Hp]. congruence.
  - destruct Hc as (H1 & H2). unfold ptr_at. rewrite bind_assoc. erewrite bind_ok by reflexivity.
    rewrite bind_assoc. rewrite (bind_ok _ _ _ tt w) by (apply dassert_true; unfold ret; do 2 f_equal; lia).
    rewrite bind_assoc. rewrite (bind_ok _ _ _ tt w) by (apply dassert_true; unfold ret; do 2 f_equal; lia).
    rewrite bind_assoc. erewrite bind_ok by reflexivity.
    rewrite (proj2 (N.leb_le _ _)) by lia. 
    split; [split; [discriminate|tauto]|]. intros _. eexists (RAddr _), w. split; [reflexivity|]. auto 10.
Qed.

(** When there is no misaligned access: the storage has a buffer and [T]'s alignment is at most
    STORAGE_ALIGNMENT; or there is none (all accesses are empty, at address 1) and [T]'s
    alignment is 1. *)
Theorem C62_when_aligned : forall w c,
  storage_ok w -> args_ok c -> contract w c ->
  match c with
  | CPush l _ _ _ | CWrite _ l _ _ | CRead _ l =>
      (0 < cap w -> l_align l <= SA -> ~ misaligned w c) /\
      (cap w = 0 -> (misaligned w c <-> 1 < l_align l /\
         match c with CRead _ _ => True | _ => l_size l <> 0 end))
  | _ => ~ misaligned w c
  end.
Proof.
  intros w c Hok Ha Hc. pose proof (ok_pos_le w Hok).
  assert (G : forall l p, pow2 (l_align l) -> (l_align l | p) -> 0 < cap w -> l_align l <= SA ->
    (l_align l | ptr w + p)).
  { intros l p Hp Hd Hcap Hle. apply N.divide_add_r; [|exact Hd].
    eapply divide_trans; [|apply Hok; exact Hcap]. apply pow2_divide; auto. apply (c_SA C). }
  assert (G0 : forall l p, pow2 (l_align l) -> cap w = 0 -> p <= cap w ->
    (~ (l_align l | ptr w + p) <-> 1 < l_align l)).
  { intros l p Hp Hcap Hle. assert (ptr w = 1) as -> by (apply Hok; exact Hcap).
    replace (1 + p) with 1 by lia. pose proof (pow2_pos _ Hp). split.
    - intros Hn. destruct (N.eq_dec (l_align l) 1) as [E1|]; [|lia]. exfalso. apply Hn. rewrite E1. apply N.divide_refl.
    - intros Hlt Hd. apply N.divide_1_r in Hd. lia. }
  destruct c as [n|l n d size|a|p l n d|p l|p]; cbn [args_ok contract misaligned] in *; try tauto.
  - destruct Hc as (H1 & -> & H3). destruct Ha as ((Hp & _) & _). split.
    + intros Hcap Hle [_ Hbad]. apply Hbad. apply G; assumption.
    + intros Hcap. rewrite (G0 l (pos w)) by (assumption || lia). tauto.
  - destruct Hc as (H1 & H3). destruct Ha as ((Hp & _) & _). split.
    + intros Hcap Hle [_ Hbad]. apply Hbad. apply G; assumption.
    + intros Hcap. rewrite (G0 l p) by (assumption || lia). tauto.
  - destruct Hc as (H1 & H3). destruct Ha as ((Hp & _) & _). split.
    + intros Hcap Hle Hbad. apply Hbad. apply G; assumption.
    + intros Hcap. rewrite (G0 l p) by (assumption || lia). tauto.
Qed.

(** Histories mixing safe calls and unsafe calls that meet their contracts. *)
Theorem C62_histories : forall hs w, alloc_ok -> storage_ok w -> respects hs w ->
  match run_hs hs w with
  | Ok _ w' => storage_ok w' /\ extends w w'
  | Abort => alloc_failed
  | UB => exists w1, storage_ok w1 /\
      ((exists o, In (HSafe o) hs /\ empty_slice_push w1 o) \/
       (exists c, In (HUnsafe c) hs /\ contract w1 c /\ misaligned w1 c))
  | Panic _ _ | OutOfFuel => False
  end.
Proof.
  intros hs w HA. revert w. induction hs as [|h hs IH]; intros w Hok Hr.
  { cbn. split; [exact Hok|apply extends_refl]. }
  cbn [respects] in Hr. destruct Hr as [Hh Hr]. cbn [run_hs]. unfold bind.
  assert (S : match run_h h w with
    | Ok _ w' => storage_ok w' /\ extends w w'
    | Abort => alloc_failed
    | UB => (exists o, h = HSafe o /\ empty_slice_push w o) \/
            (exists c, h = HUnsafe c /\ contract w c /\ misaligned w c)
    | _ => False end).
  { destruct h as [o|c]; cbn [run_h].
    - pose proof (run_op_spec C HA w o Hok Hh) as S. destruct (run_op o w); try contradiction.
      + destruct S as (S1 & S2 & _); auto.
      + destruct S as (S1 & S2 & _); auto.
      + exact S.
      + left. exists o. auto.
    - destruct Hh as [Hargs Hcon]. destruct (C62_contracts w c Hok Hargs Hcon) as [A B].
      assert (D : forall r w', does w c r w' -> extends w w').
      { intros r w' (D1 & D2 & D3 & D4 & _). apply extends_same; assumption. }
      assert (Hcase : run_ucall c w = UB \/ exists r w', run_ucall c w = Ok r w').
      { destruct (run_ucall c w) eqn:Er; eauto;
        assert (Hm : ~ misaligned w c) by (intros Hm; apply A in Hm; discriminate);
        destruct (B Hm) as (r & w' & E & _); discriminate. }
      assert (Hbranch : (fun X : Prop => X) match run_h (HUnsafe c) w with
        | Ok _ w' => storage_ok w' /\ extends w w'
        | Abort => alloc_failed
        | UB => (exists o, HUnsafe c = HSafe o /\ empty_slice_push w o) \/
                (exists c0, HUnsafe c = HUnsafe c0 /\ contract w c0 /\ misaligned w c0)
        | _ => False end).
      { destruct Hcase as [Hu|(r & w' & Hu)].
        - assert (E : run_h (HUnsafe c) w = UB).
          { destruct c; cbn [run_h]; unfold bind; rewrite Hu; reflexivity. }
          rewrite E. right. exists c. split; [reflexivity|]. split; [exact Hcon|]. apply A. exact Hu.
        - assert (Hm : ~ misaligned w c) by (intros Hm; apply A in Hm; congruence).
          destruct (B Hm) as (r0 & w0 & E & Hd & Hp). rewrite E in Hu. inversion Hu; subst r0 w0.
          pose proof (D _ _ Hd) as Hext.
          destruct c; cbn [run_h]; unfold bind; rewrite E; try (split; [exact Hp|exact Hext]).
          destruct Hp as (w2 & P1 & P2 & P3 & P4 & P5 & P6 & P7 & P8).
          rewrite P1. split; [exact P2|]. eapply extends_trans; [exact Hext|]. apply extends_same; auto. }
      exact Hbranch. }
  destruct (run_h h w) as [[] w1|? ?| | |]; try contradiction.
  - destruct S as [S1 S2]. specialize (IH w1 S1 Hr). destruct (run_hs hs w1) as [[] w2|? ?| | |]; auto.
    + destruct IH as [I1 I2]. split; [exact I1|eapply extends_trans; eassumption].
    + destruct IH as (w2 & I1 & [(o & I2 & I3)|(c & I2 & I3)]); exists w2; (split; [exact I1|]); [left|right]; eexists; (split; [right; exact I2|exact I3]).
  - exact S.
  - exists w. split; [exact Hok|]. destruct S as [(o & -> & S)|(c & -> & S)]; [left|right]; eexists; (split; [left; reflexivity|exact S]).
Qed.

(** with_capacity_unchecked (storage/mod.rs:220-226). *)
Theorem C62_new : forall c, alloc_ok -> 0 < c -> c <= MAXC -> (MVA | c) ->
  match with_capacity_unchecked c sw_new with
  | Ok _ w => storage_ok w /\ extends sw_new w /\ s_pos (sw_s w) = 0 /\ s_cap (sw_s w) = c /\ sw_calls w = 1%nat
  | Abort => alloc_failed
  | _ => False
  end.
Proof.
  intros c HA H0 H1 H2. pose proof (c_MVA_pos C). pose proof (c_MAXC_bound C). pose proof (c_umod C).
  assert (E : with_capacity c sw_new = with_capacity_unchecked c sw_new).
  { unfold with_capacity. erewrite bind_ok by apply (assert_alignments_valid_ok C).
    destruct (N.eqb_spec c 0); [lia|].
    erewrite bind_ok by (apply assert_or_true; lia).
    cfg.
    erewrite bind_ok by (apply align_up_to_ok; [apply (c_MVA C)|lia]).
    rewrite round_up_id by (assumption || lia). reflexivity. }
  pose proof (with_capacity_spec C HA c ltac:(lia)) as S. rewrite E in S.
  destruct (with_capacity_unchecked c sw_new) as [[] w|p w| | |]; try contradiction; try exact S.
  - destruct S as (_ & S1 & S2 & S3 & S4 & _ & S6). ands; auto.
    rewrite S4. apply round_up_id; [lia|assumption].
  - destruct S as (_ & S & _). lia.
Qed.

(** ** C63: builds with debug assertions catch every violation *)

Theorem C63_debug_catches : forall w c,
  dbg = true -> storage_ok w -> args_ok c -> ~ contract w c ->
  exists e, run_ucall c w = Panic e w.
Proof.
  intros w c D Hok Ha Hc. pose proof (ok_pos_le w Hok).
  assert (DA : forall (b : bool) (k : M sw uret), (b = false -> exists e, (dassert (ret b) ;;; k) w = Panic e w)).
  { intros b k ->. eexists. unfold bind at 1. rewrite dassert_dbg by (reflexivity || exact D). reflexivity. }
  destruct c as [n|l n d size|a|p l n d|p l|p]; cbn [args_ok contract run_ucall] in *.
  - unfold set_pos. rewrite !bind_assoc. erewrite bind_ok by reflexivity.
    destruct (N.leb_spec n (cap w)) as [H1|H1].
    2:{ rewrite bind_assoc. apply DA. reflexivity. }
    rewrite bind_assoc. rewrite (bind_ok _ _ _ tt w) by (apply dassert_true; reflexivity).
    destruct (is_aligned_to_iff w n VA (c_VA C)) as (b & E1 & E2).
    destruct b; [exfalso; apply Hc; split; [exact H1|]; apply E2; reflexivity|].
    rewrite bind_assoc. eexists. apply bind_panic. apply dassert_dbg; eassumption.
  - destruct Ha as ((Hp & _ & _) & Hn & Hsz). unfold push_slice_unchecked. rewrite !bind_assoc.
    destruct (N.leb_spec size (cap w - pos w)) as [H1|H1].
    2:{ eexists. apply bind_panic. apply dassert_dbg; [|exact D].
        unfold bind, get_cap, get_pos, gets. rewrite sub_u_ok by lia. unfold ret. do 2 f_equal. lia. }
    rewrite (bind_ok _ _ _ tt w).
    2:{ apply dassert_true. unfold bind, get_cap, get_pos, gets. rewrite sub_u_ok by lia. unfold ret. do 2 f_equal. lia. }
    pose proof (c_umod C). rewrite !bind_assoc.
    destruct (N.eqb_spec size (l_size l * n)) as [H2|H2].
    2:{ eexists. apply bind_panic. apply dassert_dbg; [|exact D].
        erewrite bind_ok by (apply mul_u_ok; lia). unfold ret. do 2 f_equal. lia. }
    rewrite (bind_ok _ _ _ tt w).
    2:{ apply dassert_true. erewrite bind_ok by (apply mul_u_ok; lia). unfold ret. do 2 f_equal. lia. }
    destruct (is_aligned_to_iff w (pos w) (l_align l) Hp) as (b & E1 & E2).
    destruct b; [exfalso; apply Hc; ands; [lia|exact H2|]; apply E2; reflexivity|].
    rewrite !bind_assoc. eexists. apply bind_panic. apply dassert_dbg; [|exact D].
    erewrite bind_ok by reflexivity. exact E1.
  - unfold align. rewrite !bind_assoc.
    destruct (N.leb_spec VA a) as [H1|H1]; [|apply DA; reflexivity].
    rewrite (bind_ok _ _ _ tt w) by (apply dassert_true; reflexivity). rewrite !bind_assoc.
    destruct (N.leb_spec a MVA) as [H2|H2]; [|apply DA; reflexivity].
    rewrite (bind_ok _ _ _ tt w) by (apply dassert_true; reflexivity). rewrite !bind_assoc.
    destruct (is_pow2 a) eqn:H3; [|apply DA; reflexivity].
    exfalso. apply Hc. ands; auto. apply is_pow2_spec. exact H3.
  - destruct Ha as ((Hp & _ & _) & Hn & Hsz). pose proof (c_umod C).
    unfold write_slice. rewrite !bind_assoc. erewrite bind_ok by reflexivity. rewrite !bind_assoc.
    destruct (N.leb_spec p (cap w)) as [H1|H1]; [|apply DA; reflexivity].
    rewrite (bind_ok _ _ _ tt w) by (apply dassert_true; reflexivity). rewrite !bind_assoc.
    destruct (N.leb_spec (l_size l * n) (cap w - p)) as [H2|H2].
    2:{ eexists. apply bind_panic. apply dassert_dbg; [|exact D].
        erewrite bind_ok by (apply sub_u_ok; lia). erewrite bind_ok by (apply mul_u_ok; lia).
        unfold ret. do 2 f_equal. lia. }
    rewrite (bind_ok _ _ _ tt w).
    2:{ apply dassert_true. erewrite bind_ok by (apply sub_u_ok; lia). erewrite bind_ok by (apply mul_u_ok; lia).
        unfold ret. do 2 f_equal. lia. }
    destruct (is_aligned_to_iff w p (l_align l) Hp) as (b & E1 & E2).
    destruct b; [exfalso; apply Hc; ands; [lia|]; apply E2; reflexivity|].
    rewrite !bind_assoc. eexists. apply bind_panic. apply dassert_dbg; eassumption.
  - destruct Ha as ((Hp & _ & Hs) & Hsz). pose proof (c_umod C).
    unfold read. rewrite !bind_assoc.
    destruct (N.leb_spec umod (p + l_size l)) as [HH|HH].
    { eexists. apply bind_panic. unfold dassert. rewrite D. apply bind_panic. apply bind_panic.
      unfold add_u. destruct (N.ltb_spec (p + l_size l) umod); [lia|]. rewrite D. reflexivity. }
    destruct (N.leb_spec (p + l_size l) (pos w)) as [H1|H1].
    2:{ eexists. apply bind_panic. apply dassert_dbg; [|exact D].
        erewrite bind_ok by (apply add_u_ok; lia). unfold bind, get_pos, gets, ret. do 2 f_equal. lia. }
    rewrite (bind_ok _ _ _ tt w).
    2:{ apply dassert_true. erewrite bind_ok by (apply add_u_ok; lia). unfold bind, get_pos, gets, ret. do 2 f_equal. lia. }
    destruct (is_aligned_to_iff w p (l_align l) Hp) as (b & E1 & E2).
    destruct b; [exfalso; apply Hc; ands; [lia|]; apply E2; reflexivity|].
    rewrite !bind_assoc. eexists. apply bind_panic. apply dassert_dbg; eassumption.
  - unfold ptr_at. rewrite !bind_assoc. erewrite bind_ok by reflexivity. rewrite !bind_assoc.
    destruct (N.ltb_spec 0 (cap w)) as [H1|H1]; [|apply DA; reflexivity].
    rewrite (bind_ok _ _ _ tt w) by (apply dassert_true; reflexivity). rewrite !bind_assoc.
    destruct (N.leb_spec p (cap w)) as [H2|H2]; [|apply DA; reflexivity].
    exfalso. apply Hc. auto.
Qed.

Theorem C63_debug_catches_new : forall c, dbg = true -> c < umod ->
  ~ (0 < c /\ c <= MAXC /\ (MVA | c)) ->
  exists e, with_capacity_unchecked c sw_new = Panic e sw_new.
Proof.
  intros c D Hu Hc. unfold with_capacity_unchecked.
  erewrite bind_ok by apply (assert_alignments_valid_ok C).
  destruct (N.ltb_spec 0 c) as [H1|H1].
  2:{ eexists. apply bind_panic. apply dassert_dbg; [reflexivity|exact D]. }
  erewrite bind_ok by (apply dassert_true; reflexivity).
  destruct (N.leb_spec c MAXC) as [H2|H2].
  2:{ eexists. apply bind_panic. apply dassert_dbg; [reflexivity|exact D]. }
  erewrite bind_ok by (apply dassert_true; reflexivity).
  destruct (is_aligned_to_iff sw_new c MVA (c_MVA C)) as (b & E1 & E2).
  destruct b; [exfalso; apply Hc; ands; auto; apply E2; reflexivity|].
  eexists. apply bind_panic. apply dassert_dbg; eassumption.
Qed.

(** Builds without debug assertions check nothing: these calls always return, and set_pos leaves
    the storage in order exactly when its contract is met. *)
Theorem C63_release_unchecked : forall w,
  dbg = false -> storage_ok w ->
  (forall n, exists w', set_pos n w = Ok tt w' /\ pos w' = n /\ (storage_ok w' <-> contract w (CSetPos n))) /\
  (forall p l n d, any_layout l -> write_slice p l n d w <> UB ->
     exists w', write_slice p l n d w = Ok tt w' /\ storage_ok w') /\
  (forall p l n d, any_layout l ->
     (write_slice p l n d w = UB <->
      l_size l <> 0 /\ (cap w < p + l_size l * n \/ ~ (l_align l | ptr w + p)))) /\
  (forall p l, any_layout l ->
     (read p l w = UB <-> cap w < p + l_size l \/ ~ (l_align l | ptr w + p))) /\
  (forall p, ptr_at p w = UB <-> cap w < p).
Proof.
  intros w D Hok.
  assert (DR : forall (c : M sw bool), dassert c w = Ok tt w) by (intros c; unfold dassert; rewrite D; reflexivity).
  assert (W : forall p l n d, write_slice p l n d w =
    if l_size l =? 0 then Ok tt w
    else if (p + l_size l * n <=? cap w) && addr_ok (ptr w + p) l
    then Ok tt (placed w p (l_size l * n) d (pos w)) else UB).
  { intros p l n d. unfold write_slice. erewrite bind_ok by reflexivity.
    rewrite !(bind_ok _ _ _ tt w (DR _)). destruct (l_size l =? 0); [reflexivity|]. unfold addr_ok.
    destruct (p + l_size l * n <=? cap w), ((ptr w + p) mod l_align l =? 0); reflexivity. }
  ands.
  - intros n. exists (at_pos w n). split.
    { unfold set_pos. erewrite bind_ok by reflexivity. rewrite !(bind_ok _ _ _ tt w (DR _)). reflexivity. }
    split; [reflexivity|]. cbn [contract]. split.
    + intros Hs. split; [apply (ok_pos_le (at_pos w n) Hs)|apply (ok_pos_mul (at_pos w n) Hs)].
    + intros [H1 H2]. apply ok_at_pos; assumption.
  - intros p l n d Hl. rewrite W. destruct (l_size l =? 0).
    { intros _. exists w. split; [reflexivity|exact Hok]. }
    destruct (_ && _); [|congruence]. intros _. eexists. split; [reflexivity|exact Hok].
  - intros p l n d (Hp & _). rewrite W. destruct (N.eqb_spec (l_size l) 0) as [E|E].
    { split; [discriminate|]. intros [? _]. contradiction. }
    pose proof (addr_ok_spec (ptr w + p) l Hp) as A.
    destruct (N.leb_spec (p + l_size l * n) (cap w)), (addr_ok (ptr w + p) l); cbn [andb].
    + split; [discriminate|]. intros [_ [?|HN]]; [lia|]. exfalso. apply HN, A; reflexivity.
    + split; [|reflexivity]. intros _. split; [exact E|]. right. intros HN. apply A in HN. discriminate.
    + split; [|reflexivity]. intros _. split; [exact E|]. left. lia.
    + split; [|reflexivity]. intros _. split; [exact E|]. left. lia.
  - intros p l (Hp & _). unfold read. rewrite !(bind_ok _ _ _ tt w (DR _)).
    pose proof (addr_ok_spec (ptr w + p) l Hp) as A. unfold addr_ok in A.
    destruct (N.leb_spec (p + l_size l) (cap w)), ((ptr w + p) mod l_align l =? 0); cbn [andb].
    + split; [discriminate|]. intros [?|HN]; [lia|]. exfalso. apply HN, A; reflexivity.
    + split; [|reflexivity]. intros _. right. intros HN. apply A in HN. discriminate.
    + split; [|reflexivity]. intros _. left. lia.
    + split; [|reflexivity]. intros _. left. lia.
  - intros p. unfold ptr_at. erewrite bind_ok by reflexivity. rewrite !(bind_ok _ _ _ tt w (DR _)).
    erewrite bind_ok by reflexivity. destruct (N.leb_spec p (cap w)).
    + split; [discriminate|lia].
    + split; [lia|reflexivity].
Qed.
End Cfg.
End Unsafe.

(** ** Witnesses *)

Definition u64_l : layout := mkLayout 8 8.
Definition two_words : mem := bytes_src (le_bytes 8 17 ++ le_bytes 8 4711).
(** with_capacity(32), then unsafe calls and a push. *)
Definition demo_calls : list hcall :=
  [HUnsafe (CWrite 0 u64_l 2 two_words); HUnsafe (CSetPos 16); HUnsafe (CRead 8 u64_l);
   HUnsafe (CPush u8_layout 3 two_words 3); HUnsafe (CAlign 16); HUnsafe (CPtr 32);
   HSafe (OPush u64_l two_words); HUnsafe (CWrite 32 (mkLayout 0 1) 1 no_mem)].
Definition w32 : sw := match @with_capacity demo 32 sw_new with Ok _ w => w | _ => sw_new end.

Lemma w32_ok : @storage_ok demo w32.
Proof. apply (start_ok demo_cfg demo_alloc_ok 32 w32); [apply ltc; vm_compute; reflexivity|reflexivity]. Qed.
Example C62_hypotheses : @respects demo demo_calls w32.
Proof.
  vm_compute.
  repeat match goal with
  | |- _ /\ _ => split
  | |- True => exact I
  | |- _ = _ => reflexivity
  | |- ?a = Gt -> False => discriminate
  | |- exists _, _ => first [exists 0; reflexivity | exists 1; reflexivity | exists 2; reflexivity
      | exists 3; reflexivity | exists 4; reflexivity | exists 16; reflexivity | exists 32; reflexivity]
  end.
Qed.
Example C62_demo :
  match @run_hs demo demo_calls w32 with
  | Ok _ w => s_pos (sw_s w) = 40 /\ s_cap (sw_s w) = 64 /\
      map (s_buf (sw_s w)) [8; 9; 16; 17; 18; 19] = [Some 103; Some 18; Some 17; Some 0; Some 0; None]
  | _ => False
  end.
Proof. vm_compute. repeat split. Qed.

(** The contracts do not rule out misaligned accesses: writing no [u64] at position 0 of a new
    storage, and writing a type whose alignment exceeds STORAGE_ALIGNMENT, at an address the
    allocator chose.  Debug assertions do not catch them either. *)
Definition odd_alloc (n : nat) (size : N) : N := if size <=? 2 ^ 32 then 65552 else 0.
Definition demo_odd : Params :=
  {| pW := 8; pBE := false; dbg := true; SA := 16; MVA := 16; VA := 8; MAXC := 4096; orc := odd_alloc |}.
Definition w_odd : sw := match @with_capacity demo_odd 32 sw_new with Ok _ w => w | _ => sw_new end.
Ltac contract_holds := vm_compute;
  repeat match goal with
  | |- _ /\ _ => split
  | |- _ = _ => reflexivity
  | |- ?a = Gt -> False => discriminate
  | |- exists _, _ => first [exists 0; reflexivity | exists 1; reflexivity | exists 3; reflexivity
      | exists 2; reflexivity | exists 5; reflexivity ]
  end.
Example C62_empty_write_refuted :
  @storage_ok demo sw_new /\ @args_ok demo (CWrite 0 u64_l 0 no_mem) /\
  @contract demo sw_new (CWrite 0 u64_l 0 no_mem) /\ @run_ucall demo (CWrite 0 u64_l 0 no_mem) sw_new = UB.
Proof. split; [apply (sw_new_ok (P := demo)); exact demo_cfg|]. ands; [contract_holds..|reflexivity]. Qed.
Example C62_wide_type_refuted :
  @storage_ok demo_odd w_odd /\ @args_ok demo_odd (CWrite 0 (mkLayout 32 32) 1 no_mem) /\
  @contract demo_odd w_odd (CWrite 0 (mkLayout 32 32) 1 no_mem) /\
  @run_ucall demo_odd (CWrite 0 (mkLayout 32 32) 1 no_mem) w_odd = UB.
Proof.
  split; [|ands; [contract_holds..|vm_compute; reflexivity]].
  unfold storage_ok. vm_compute. repeat split; try discriminate; eexists; [instantiate (1 := 2)|instantiate (1 := 0)|instantiate (1 := 4097)]; reflexivity.
Qed.

(** C63: set_pos(12) with VALUE_ALIGNMENT = 8, read of a u64 at the end, write past the end. *)
Example C63_witness :
  Forall (fun c => @args_ok demo c /\ ~ @contract demo w32 c /\ exists e, @run_ucall demo c w32 = Panic e w32)
    [CSetPos 12; CSetPos 40; CRead 0 u64_l; CWrite 32 u64_l 1 two_words; CWrite 28 (mkLayout 4 4) 2 two_words;
     CPush u64_l 2 two_words 8; CPush u64_l 5 two_words 40; CAlign 12; CAlign 32; CAlign 4; CPtr 33].
Proof.
  assert (G : forall c, @args_ok demo c -> ~ @contract demo w32 c ->
    @args_ok demo c /\ ~ @contract demo w32 c /\ exists e, @run_ucall demo c w32 = Panic e w32).
  { intros c H1 H2. split; [exact H1|]. split; [exact H2|].
    apply (C63_debug_catches demo_cfg); [reflexivity|exact w32_ok|exact H1|exact H2]. }
  repeat (constructor; [apply G; [contract_holds|]|]); [..|constructor].
  all: cbn [contract]; change (s_cap (sw_s w32)) with 32; change (s_pos (sw_s w32)) with 0;
    change (@VA demo) with 8; change (@MVA demo) with 16; unfold u64_l, l_size, l_align; intros H.
  1: destruct H as [_ [k H]]; lia.
  7: destruct H as (_ & _ & H); apply is_pow2_spec in H; discriminate.
  all: lia.
Qed.
