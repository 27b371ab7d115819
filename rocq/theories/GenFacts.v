(** * GenFacts: the default methods of Storage over any implementor that keeps to the
    contract of GenSpec.v. *)
From Verif Require Import Base Types Storage Spec ArithFacts StorageFacts GenStorage GenSpec.
From Coq Require Import ZifyBool ZifyNat ZifyN.
Local Open Scope N_scope.

Section GenFacts.
Context {P : Params}.
Hypothesis C : cfg_ok.

Ltac cfg :=
  pose proof (c_SA_pos C); pose proof (c_MVA_pos C); pose proof (c_VA_pos C);
  pose proof (c_VA_MVA C); pose proof (c_MVA_SA C); pose proof (c_MAXC C);
  pose proof (c_MVA_le_MAXC C); pose proof (c_sum C); pose proof (c_umod C);
  pose proof (c_SA_lt_imax C).

Context {St : Type}.
Variable I : storage_impl St.
Variable inv : St -> Prop.
Variable contents : St -> mem.
Variable empties : bool.
Hypothesis K : keeps_contract I inv contents empties.

Notation pos := (i_pos I).
Notation cap := (i_capacity I).

Lemma same_below_trans n a b c : same_below n a b -> same_below n b c -> same_below n a c.
Proof. intros Q1 Q2 i Hi. rewrite (Q1 i Hi). apply Q2; exact Hi. Qed.
Lemma same_below_le n m a b : m <= n -> same_below n a b -> same_below m a b.
Proof. intros Q1 Q2 i Hi. apply Q2. lia. Qed.
Lemma same_below_refl n a : same_below n a a.
Proof. intros i _. reflexivity. Qed.

Lemma g_align_ok s a :
  inv s -> pow2 a -> VA <= a -> a <= MVA ->
  exists s', g_align I a s = Ok tt s' /\ inv s' /\ pos s' = round_up (pos s) a /\
    cap s' = cap s /\ same_below (pos s) (contents s') (contents s).
Proof.
  intros Hi Ha Hva Hmva. cfg.
  destruct (kc_state _ _ _ _ K s Hi) as (Hd & Hc & Hp).
  assert (Hr : round_up (pos s) a <= cap s).
  { apply round_up_least; [lia| |exact Hp].
    eapply divide_trans; [|exact Hd]. apply pow2_divide; auto. apply (c_MVA C). }
  assert (Hge : pos s <= round_up (pos s) a) by (apply round_up_ge; lia).
  destruct (kc_set_pos _ _ _ _ K s (round_up (pos s) a) Hi Hr) as (s' & E & Hi' & Hp' & Hc' & Hb).
  { eapply divide_trans; [|apply round_up_divide]. apply pow2_divide; auto. apply (c_VA C). }
  exists s'. rewrite N.min_r in Hb by exact Hge. ands; auto.
  unfold g_align, bind.
  rewrite dassert_true by (unfold ret; do 2 f_equal; lia).
  rewrite dassert_true by (unfold ret; do 2 f_equal; lia).
  rewrite dassert_true by (unfold ret; rewrite (proj2 (is_pow2_spec a) Ha); reflexivity).
  cbv [gets]. rewrite align_up_to_ok by (auto; lia). exact E.
Qed.

Lemma g_align_for_ok s l :
  ready I inv s -> pow2 (l_align l) -> l_align l <= MVA ->
  exists s', g_align_for I l s = Ok tt s' /\ ready I inv s' /\ pos s' = push_start (pos s) l /\
    cap s' = cap s /\ same_below (pos s) (contents s') (contents s).
Proof.
  intros (Hi & Hv) Ha Hl. cfg. unfold g_align_for, push_start.
  destruct (N.ltb_spec VA (l_align l)) as [Hlt|Hge].
  - rewrite N.max_l by lia.
    destruct (g_align_ok s (l_align l) Hi Ha ltac:(lia) Hl) as (s' & E & Hi' & Hp & Hc & Hb).
    exists s'. ands; auto. split; [exact Hi'|]. rewrite Hp.
    eapply divide_trans; [|apply round_up_divide]. apply pow2_divide; auto; [apply (c_VA C)|lia].
  - rewrite N.max_r by lia. rewrite round_up_id by (try lia; exact Hv).
    exists s. ands; try reflexivity; [split; assumption|apply same_below_refl].
Qed.

Lemma g_align_after_ok s l a n :
  inv s -> (VA | a) -> pos s = a + l_size l * n ->
  exists s', g_align_after I l s = Ok tt s' /\ ready I inv s' /\ pos s' = round_up (pos s) VA /\
    cap s' = cap s /\ same_below (pos s) (contents s') (contents s).
Proof.
  intros Hi Ha Hp. cfg. unfold g_align_after.
  destruct (N.ltb_spec 0 (l_size l mod VA)) as [Hlt|Hge].
  - destruct (g_align_ok s VA Hi (c_VA C) ltac:(lia) ltac:(lia)) as (s' & E & Hi' & Hp' & Hc & Hb).
    exists s'. ands; auto. split; [exact Hi'|]. rewrite Hp'. apply round_up_divide.
  - assert ((VA | l_size l)) by (apply N.mod_divide; [lia|apply N.le_0_r; exact Hge]).
    assert (Hv : (VA | pos s)).
    { rewrite Hp. apply N.divide_add_r; [exact Ha|]. apply N.divide_mul_l. assumption. }
    rewrite round_up_id by (try lia; exact Hv).
    exists s. ands; try reflexivity; [split; assumption|apply same_below_refl].
Qed.

Lemma divide_le_add a b c : (a | b) -> (a | c - b) -> b <= c -> (a | c).
Proof.
  intros Q1 Q2 Q3. replace c with (b + (c - b)) by lia. apply N.divide_add_r; assumption.
Qed.

(** What each call does to the position, the contents and the returned position; [shift] is
    what reserve added to the position. *)
Lemma g_push_slice_ok s l n data :
  ready I inv s -> good_layout l -> 0 < l_size l -> l_size l * n < umod ->
  (0 < n \/ empties = true) ->
  match g_push_slice I l n data s with
  | Ok p s' =>
      exists shift, (MVA | shift) /\
      p = push_start (pos s) l + shift /\ pos s' = round_up (p + l_size l * n) VA /\
      (reserve_keeps_pos I inv -> shift = 0) /\
      same_below (pos s) (contents s') (contents s) /\
      (forall i, i < l_size l * n -> contents s' (p + i) = data i) /\
      ready I inv s'
  | Panic _ s' => ready I inv s' /\ pos s' = push_start (pos s) l /\
      same_below (pos s) (contents s') (contents s)
  | Abort => True
  | UB | OutOfFuel => False
  end.
Proof.
  intros Hr Hg Hs Hsz Hn. cfg. pose proof Hg as (Ha & Hg2 & Hg3 & Hg4).
  unfold g_push_slice. destruct (N.eqb_spec (l_size l) 0) as [|_]; [lia|].
  destruct (g_align_for_ok s l Hr Ha Hg4) as (s1 & E1 & Hr1 & Hp1 & Hc1 & Hb1).
  erewrite bind_ok by exact E1.
  erewrite bind_ok by (apply mul_u_ok; lia).
  pose proof (push_start_ge C (pos s) l Ha) as Hge.
  unfold bind at 1.
  pose proof (kc_reserve _ _ _ _ K s1 (l_size l * n) (proj1 Hr1) (proj2 Hr1) ltac:(lia)) as Hres.
  destruct (i_reserve I (l_size l * n) s1) as [[] s2|p s2| | |] eqn:E2; auto.
  2:{ destruct Hres as (Hi2 & Hp2 & Hb2). ands; [split| |]; auto.
      - rewrite Hp2. apply Hr1.
      - congruence.
      - eapply same_below_trans; [|exact Hb1]. eapply same_below_le; [|exact Hb2]. lia. }
  destruct Hres as (Hi2 & Hle2 & Hd2 & Hc2 & Hb2).
  erewrite bind_ok by reflexivity.
  assert (HdA : (l_align l | pos s2)).
  { apply divide_le_add with (pos s1); auto.
    - rewrite Hp1. apply push_start_align; assumption.
    - eapply divide_trans; [|exact Hd2]. apply pow2_divide; auto. apply (c_MVA C). }
  assert (HdV : (VA | pos s2)).
  { apply divide_le_add with (pos s1); auto; [apply Hr1|].
    eapply divide_trans; [apply (c_VA_dvd_MVA C)|exact Hd2]. }
  destruct (kc_push_slice_unchecked _ _ _ _ K s2 l n data Hi2 Hg Hs Hn HdA Hc2)
    as (s3 & E3 & Hi3 & Hp3 & Hc3 & Hb3 & Hdat).
  erewrite bind_ok by exact E3.
  destruct (g_align_after_ok s3 l (pos s2) n Hi3 HdV Hp3) as (s4 & E4 & Hr4 & Hp4 & Hc4 & Hb4).
  erewrite bind_ok by exact E4. unfold ret.
  exists (pos s2 - pos s1). ands; auto.
  - lia.
  - congruence.
  - intros Hk. specialize (Hk s1 (l_size l * n) (proj1 Hr1) (proj2 Hr1) ltac:(lia)).
    rewrite E2 in Hk. lia.
  - eapply same_below_trans; [eapply same_below_le; [|exact Hb4]; lia|].
    eapply same_below_trans; [eapply same_below_le; [|exact Hb3]; lia|].
    eapply same_below_trans; [eapply same_below_le; [|exact Hb2]; lia|]. exact Hb1.
  - intros i Hi. rewrite (Hb4 (pos s2 + i)) by lia. apply Hdat; exact Hi.
Qed.

Lemma VA_umod : (VA | umod).
Proof.
  cfg. apply pow2_divide; [apply (c_VA C)|eexists; reflexivity|lia].
Qed.

Lemma g_push_empty_slice_ok s l n :
  ready I inv s -> good_layout l -> (VA | l_size l * n) ->
  match g_push_empty_slice I l n s with
  | Ok p s' =>
      exists shift, (MVA | shift) /\
      p = push_start (pos s) l + shift /\ p <= pos s' /\
      (l_size l * n < umod -> pos s' = round_up (p + l_size l * n) VA) /\
      (reserve_keeps_pos I inv -> shift = 0) /\
      same_below (pos s) (contents s') (contents s) /\
      ready I inv s'
  | Panic _ s' => ready I inv s' /\ pos s' = push_start (pos s) l /\
      same_below (pos s) (contents s') (contents s)
  | Abort => True
  | UB | OutOfFuel => False
  end.
Proof.
  intros Hr Hg Hv. cfg. pose proof Hg as (Ha & Hg2 & Hg3 & Hg4).
  unfold g_push_empty_slice.
  destruct (g_align_for_ok s l Hr Ha Hg4) as (s1 & E1 & Hr1 & Hp1 & Hc1 & Hb1).
  erewrite bind_ok by exact E1.
  pose proof (push_start_ge C (pos s) l Ha) as Hge.
  assert (Hm : exists size, size < umod /\ (VA | size) /\
            (l_size l * n < umod -> size = l_size l * n) /\
            (mul_u (l_size l) n s1 = Ok size s1 \/
             mul_u (l_size l) n s1 = Panic PArith s1)).
  { destruct (N.lt_ge_cases (l_size l * n) umod) as [Hlt|Hge'].
    - exists (l_size l * n). ands; auto. left. apply mul_u_ok; exact Hlt.
    - exists ((l_size l * n) mod umod). ands.
      + apply N.mod_lt. lia.
      + rewrite N.mod_eq by lia. apply N.divide_sub_r; [exact Hv|].
        apply N.divide_mul_l. apply VA_umod.
      + lia.
      + unfold mul_u. rewrite (proj2 (N.ltb_ge _ _) Hge').
        destruct dbg; [right|left]; reflexivity. }
  destruct Hm as (size & Hsu & Hsv & Hseq & [Em|Em]).
  2:{ erewrite bind_panic by exact Em. ands; auto. }
  erewrite bind_ok by exact Em.
  unfold bind at 1.
  pose proof (kc_reserve _ _ _ _ K s1 size (proj1 Hr1) (proj2 Hr1) Hsu) as Hres.
  destruct (i_reserve I size s1) as [[] s2|p s2| | |] eqn:E2; auto.
  2:{ destruct Hres as (Hi2 & Hp2 & Hb2). ands; [split| |]; auto.
      - rewrite Hp2. apply Hr1.
      - congruence.
      - eapply same_below_trans; [|exact Hb1]. eapply same_below_le; [|exact Hb2]. lia. }
  destruct Hres as (Hi2 & Hle2 & Hd2 & Hc2 & Hb2).
  erewrite bind_ok by reflexivity.
  assert (HdV : (VA | pos s2)).
  { apply divide_le_add with (pos s1); auto; [apply Hr1|].
    eapply divide_trans; [apply (c_VA_dvd_MVA C)|exact Hd2]. }
  destruct (kc_state _ _ _ _ K s2 Hi2) as (_ & Hcm & _).
  erewrite bind_ok by (apply add_u_ok; lia).
  assert (HdS : (VA | pos s2 + size)) by (apply N.divide_add_r; assumption).
  destruct (kc_set_pos _ _ _ _ K s2 (pos s2 + size) Hi2 Hc2 HdS)
    as (s3 & E3 & Hi3 & Hp3 & Hc3 & Hb3).
  rewrite N.min_r in Hb3 by lia.
  erewrite bind_ok by exact E3.
  destruct (g_align_after_ok s3 l (pos s2 + size) 0 Hi3 HdS ltac:(lia))
    as (s4 & E4 & Hr4 & Hp4 & Hc4 & Hb4).
  erewrite bind_ok by exact E4. unfold ret.
  rewrite round_up_id in Hp4 by (try lia; rewrite Hp3; exact HdS).
  exists (pos s2 - pos s1). ands; auto.
  - lia.
  - lia.
  - intros Hlt. rewrite Hp4, Hp3, (Hseq Hlt). symmetry. apply round_up_id; [lia|].
    rewrite <- (Hseq Hlt). exact HdS.
  - intros Hk. specialize (Hk s1 size (proj1 Hr1) (proj2 Hr1) Hsu).
    rewrite E2 in Hk. lia.
  - eapply same_below_trans; [eapply same_below_le; [|exact Hb4]; lia|].
    eapply same_below_trans; [eapply same_below_le; [|exact Hb3]; lia|].
    eapply same_below_trans; [eapply same_below_le; [|exact Hb2]; lia|]. exact Hb1.
Qed.

(** ** One call *)
Lemma g_run_op_spec s o :
  ready I inv s -> op_in_contract empties o ->
  match g_run_op I o s with
  | Ok r s' =>
      ready I inv s' /\
      (not_clear o -> pos s <= pos s' /\ same_below (pos s) (contents s') (contents s)) /\
      (no_overflow o -> stored I contents s' (pos s) [o] [r]) /\
      (reserve_keeps_pos I inv -> no_overflow o -> r = op_pos (pos s) o /\ pos s' = op_next (pos s) o)
  | Panic _ s' => ready I inv s' /\ pos s <= pos s' /\
      same_below (pos s) (contents s') (contents s)
  | Abort => True
  | UB | OutOfFuel => False
  end.
Proof.
  intros Hr (Hv & Hl & Hgap). cfg.
  assert (PS : forall l n d, good_layout l -> l_size l * n <= imax -> (0 < n \/ empties = true) ->
    match g_push_slice I l n d s with
    | Ok p s' =>
        ready I inv s' /\
        (pos s <= pos s' /\ same_below (pos s) (contents s') (contents s)) /\
        (if l_size l =? 0 then p = 0 /\ True
         else pos s <= p /\ (l_align l | p) /\ p + l_size l * n <= pos s' /\
              (forall i, i < l_size l * n -> contents s' (p + i) = d i) /\ True) /\
        (reserve_keeps_pos I inv ->
           p = (if l_size l =? 0 then 0 else push_start (pos s) l) /\
           pos s' = (if l_size l =? 0 then pos s else push_end (pos s) l n))
    | Panic _ s' => ready I inv s' /\ pos s <= pos s' /\
        same_below (pos s) (contents s') (contents s)
    | Abort => True
    | UB | OutOfFuel => False
    end).
  { intros l n d Hg Hsz Hn. destruct (N.eqb_spec (l_size l) 0) as [E0|E0].
    - unfold g_push_slice. rewrite E0. cbn [N.eqb ret]. unfold ret.
      ands; auto; try lia. apply same_below_refl.
    - pose proof (g_push_slice_ok s l n d Hr Hg ltac:(lia) ltac:(pose proof (c_umod C); lia) Hn) as HH.
      pose proof (push_start_ge C (pos s) l (proj1 Hg)) as Hge.
      destruct (g_push_slice I l n d s) as [p s'|p s'| | |]; auto.
      + destruct HH as (sh & Hsh & Hp & Hp' & Hk & Hb & Hd & Hr').
        assert (p + l_size l * n <= pos s') by (rewrite Hp'; apply round_up_ge; lia).
        ands; auto; try lia.
        * rewrite Hp. apply N.divide_add_r; [apply push_start_align; [exact C|apply Hg]|].
          eapply divide_trans; [|exact Hsh]. apply pow2_divide; [apply Hg|apply (c_MVA C)|apply Hg].
        * intros Hk'. rewrite (Hk Hk'), N.add_0_r in Hp. split; [exact Hp|].
          rewrite Hp', Hp. reflexivity.
      + destruct HH as (Q1 & Q2 & Q3). ands; auto. lia. }
  assert (PE : forall l n, good_layout l -> (VA | l_size l * n) ->
    match g_push_empty_slice I l n s with
    | Ok p s' =>
        ready I inv s' /\
        (pos s <= pos s' /\ same_below (pos s) (contents s') (contents s)) /\
        (l_size l * n < umod -> pos s <= p /\ (l_align l | p) /\ p + l_size l * n <= pos s' /\ True) /\
        (reserve_keeps_pos I inv -> l_size l * n < umod ->
           p = push_start (pos s) l /\ pos s' = push_end (pos s) l n)
    | Panic _ s' => ready I inv s' /\ pos s <= pos s' /\
        same_below (pos s) (contents s') (contents s)
    | Abort => True
    | UB | OutOfFuel => False
    end).
  { intros l n Hg Hva. pose proof (g_push_empty_slice_ok s l n Hr Hg Hva) as HH.
    pose proof (push_start_ge C (pos s) l (proj1 Hg)) as Hge.
    destruct (g_push_empty_slice I l n s) as [p s'|p s'| | |]; auto.
    - destruct HH as (sh & Hsh & Hp & Hle & Hp' & Hk & Hb & Hr').
      ands; auto; try lia.
      + intros Hu. ands; auto; try lia.
        * rewrite Hp. apply N.divide_add_r; [apply push_start_align; [exact C|apply Hg]|].
          eapply divide_trans; [|exact Hsh]. apply pow2_divide; [apply Hg|apply (c_MVA C)|apply Hg].
        * rewrite (Hp' Hu). apply round_up_ge; lia.
      + intros Hk' Hu. rewrite (Hk Hk'), N.add_0_r in Hp. split; [exact Hp|].
        rewrite (Hp' Hu), Hp. reflexivity.
    - destruct HH as (Q1 & Q2 & Q3). ands; auto. lia. }
  destruct o as [l d|l n d|n d|l|l n|n|l|l| | |]; cbn [g_run_op op_valid op_data op_gap no_overflow not_clear stored op_pos op_next] in *.
  - specialize (PS l 1 d Hv ltac:(destruct Hv as (?&?&?&?); lia) (Hl _ _ _ eq_refl)).
    unfold bind at 1, g_push. destruct (g_push_slice I l 1 d s); auto.
    destruct PS as (Q1 & Q2 & Q3 & Q4). cbn. ands; auto.
    intros Hk _. destruct (Q4 Hk) as [-> ->]. destruct (l_size l =? 0); auto.
  - specialize (PS l n d (proj1 Hv) (proj2 Hv) (Hl _ _ _ eq_refl)).
    unfold bind at 1. destruct (g_push_slice I l n d s); auto.
    destruct PS as (Q1 & Q2 & Q3 & Q4). cbn. ands; auto.
    intros Hk _. destruct (Q4 Hk) as [-> ->]. destruct (l_size l =? 0); auto.
  - assert (Hg8 : good_layout u8_layout).
    { unfold good_layout. cbn. ands; try lia; [exists 0; reflexivity|apply N.divide_refl]. }
    specialize (PS u8_layout n d Hg8 ltac:(cbn [u8_layout l_size]; lia) (Hl _ _ _ eq_refl)).
    unfold bind at 1, g_push_bytes. destruct (g_push_slice I u8_layout n d s); auto.
    destruct PS as (Q1 & Q2 & Q3 & Q4). cbn. ands; auto.
    intros Hk _. destruct (Q4 Hk) as [-> ->]. auto.
  - specialize (PE l 1 Hv (Hgap _ _ eq_refl)).
    unfold bind at 1, g_push_empty. destruct (g_push_empty_slice I l 1 s); auto.
    destruct PE as (Q1 & Q2 & Q3 & Q4).
    assert (l_size l * 1 < umod) by (destruct Hv as (?&?&?&?); lia).
    unfold ret. ands; auto.
    intros Hk _. destruct (Q4 Hk) as [-> ->]; auto.
  - specialize (PE l n (proj1 Hv) (Hgap _ _ eq_refl)).
    unfold bind at 1. destruct (g_push_empty_slice I l n s); auto.
    destruct PE as (Q1 & Q2 & Q3 & Q4). unfold ret. ands; auto.
    intros Hk Hu. destruct (Q4 Hk Hu) as [-> ->]; auto.
  - unfold bind. pose proof (kc_reserve _ _ _ _ K s n (proj1 Hr) (proj2 Hr) Hv) as HH.
    destruct (i_reserve I n s) as [[] s'|p s'| | |] eqn:E; auto.
    + destruct HH as (Q1 & Q2 & Q3 & Q4 & Q5). unfold ret. ands; auto.
      * split; [exact Q1|]. apply divide_le_add with (pos s); auto; [apply Hr|].
        eapply divide_trans; [apply (c_VA_dvd_MVA C)|exact Q3].
      * intros Hk _. specialize (Hk s n (proj1 Hr) (proj2 Hr) Hv). rewrite E in Hk. auto.
    + destruct HH as (Q1 & Q2 & Q3). ands; auto; [|lia]. split; [exact Q1|].
      rewrite Q2. apply Hr.
  - destruct (g_align_for_ok s l Hr (proj1 Hv) ltac:(apply Hv)) as (s1 & E1 & Hr1 & Hp1 & Hc1 & Hb1).
    erewrite bind_ok by exact E1. unfold ret. pose proof (push_start_ge C (pos s) l (proj1 Hv)).
    ands; auto. intros _; split; [lia|auto].
  - destruct (g_align_after_ok s l (pos s) 0 (proj1 Hr) (proj2 Hr) ltac:(lia))
      as (s1 & E1 & Hr1 & Hp1 & Hc1 & Hb1).
    rewrite round_up_id in Hp1 by (try lia; apply Hr).
    erewrite bind_ok by exact E1. unfold ret. ands; auto. intros _; split; [lia|auto].
  - destruct (g_align_ok s VA (proj1 Hr) (c_VA C) ltac:(lia) ltac:(lia))
      as (s1 & E1 & Hi1 & Hp1 & Hc1 & Hb1).
    rewrite round_up_id in Hp1 by (try lia; apply Hr).
    unfold g_align_after_any. erewrite bind_ok by exact E1. unfold ret. ands; auto.
    + split; [exact Hi1|]. rewrite Hp1; apply Hr.
    + intros _; split; [lia|auto].
  - destruct (kc_set_pos _ _ _ _ K s 0 (proj1 Hr) ltac:(lia) (N.divide_0_r VA))
      as (s1 & E1 & Hi1 & Hp1 & Hc1 & Hb1).
    unfold g_clear. erewrite bind_ok by exact E1. unfold ret. ands; auto; [|tauto].
    split; [exact Hi1|]. rewrite Hp1. apply N.divide_0_r.
  - unfold bind. pose proof (kc_shrink_to_fit _ _ _ _ K s (proj1 Hr) (proj2 Hr)) as HH.
    destruct (i_shrink_to_fit I s) as [[] s'|p s'| | |]; auto.
    + destruct HH as (Q1 & Q2 & Q3). unfold ret. ands; auto.
      * split; [exact Q1|rewrite Q2; apply Hr].
      * intros _; split; [lia|auto].
    + destruct HH as (Q1 & Q2 & Q3). ands; auto; [|lia].
      split; [exact Q1|rewrite Q2; apply Hr].
Qed.

(** ** Histories *)
Lemma g_run_ops_spec os : forall s,
  ready I inv s -> Forall (op_in_contract empties) os ->
  match g_run_ops I os s with
  | Ok _ s' => ready I inv s'
  | Abort => True
  | Panic _ _ | UB | OutOfFuel => False
  end.
Proof.
  induction os as [|o os IH]; intros s Hr Hf; [exact Hr|].
  inversion Hf as [|? ? Ho Hos]; subst. cbn [g_run_ops].
  pose proof (g_run_op_spec s o Hr Ho) as HH.
  destruct (g_run_op I o s) as [r s'|p s'| | |]; auto.
  - apply IH; [apply HH|exact Hos].
  - apply IH; [apply HH|exact Hos].
Qed.

(** What is stored stays stored while the contents below pos() are kept. *)
Lemma stored_later s s' os : forall rs from,
  pos s <= pos s' -> same_below (pos s) (contents s') (contents s) ->
  stored I contents s from os rs -> stored I contents s' from os rs.
Proof.
  induction os as [|o os IH]; intros rs from Hle Hb; destruct rs as [|r rs]; cbn [stored]; auto.
  destruct (op_data o) as [[[l n] d]|], (op_gap o) as [[gl gn]|], r as [p|]; auto.
  all: try (destruct (l_size l =? 0);
    [intros (Q1 & Q2); split; auto
    |intros (Q1 & Q2 & Q3 & Q4 & Q5); ands; auto; [lia|];
     intros i Hi; rewrite (Hb (p + i)) by lia; auto]).
  intros (Q1 & Q2 & Q3 & Q4). ands; auto. lia.
Qed.

Lemma stored_from s os : forall rs from from',
  from' <= from -> stored I contents s from os rs -> stored I contents s from' os rs.
Proof.
  induction os as [|o os IH]; intros rs from from' Hle; destruct rs as [|r rs]; cbn [stored]; auto.
  destruct (op_data o) as [[[l n] d]|], (op_gap o) as [[gl gn]|], r as [p|]; auto.
  all: try (destruct (l_size l =? 0);
    [intros (Q1 & Q2); split; eauto
    |intros (Q1 & Q2 & Q3 & Q4 & Q5); ands; auto; lia]).
  - intros (Q1 & Q2 & Q3 & Q4); ands; auto; lia.
  - eauto.
Qed.

(** One more call in front. *)
Lemma stored_cons s s1 s' o r os rs from :
  pos s <= from -> pos s1 = from ->
  stored I contents s1 (pos s) [o] [r] ->
  pos s1 <= pos s' -> same_below (pos s1) (contents s') (contents s1) ->
  stored I contents s' from os rs ->
  stored I contents s' (pos s) (o :: os) (r :: rs).
Proof.
  intros Hle E Q1 Hle' Hb Q2. subst from.
  apply (stored_later s1 s' [o] [r] _ Hle' Hb) in Q1 as Q1'.
  cbn [stored] in Q1, Q1' |- *.
  destruct (op_data o) as [[[l n] d]|], (op_gap o) as [[gl gn]|], r as [p|]; auto.
  all: try (destruct (l_size l =? 0);
    [split; [apply Q1'|eapply stored_from; [|exact Q2]; lia]
    |destruct Q1 as (_ & _ & Hp & _); destruct Q1' as (G1 & G2 & G3 & G4 & _); ands; auto;
     eapply stored_from; [|exact Q2]; lia]).
  - destruct Q1 as (_ & _ & Hp & _); destruct Q1' as (G1 & G2 & G3 & _); ands; auto;
     eapply stored_from; [|exact Q2]; lia.
  - eapply stored_from; [|exact Q2]; lia.
Qed.

Lemma g_run_seq_spec os : forall s,
  ready I inv s -> Forall (op_in_contract empties) os -> Forall no_overflow os ->
  Forall not_clear os ->
  match g_run_seq I os s with
  | Ok rs s' => ready I inv s' /\ pos s <= pos s' /\
      same_below (pos s) (contents s') (contents s) /\
      stored I contents s' (pos s) os rs
  | Panic _ s' => ready I inv s' /\ pos s <= pos s' /\
      same_below (pos s) (contents s') (contents s)
  | Abort => True
  | UB | OutOfFuel => False
  end.
Proof.
  induction os as [|o os IH]; intros s Hr Hf Hn Hc.
  { cbn. ands; auto; [lia|apply same_below_refl]. }
  inversion Hf as [|? ? Ho Hos]; subst. inversion Hn as [|? ? Hno Hnos]; subst.
  inversion Hc as [|? ? Hco Hcos]; subst. cbn [g_run_seq]. unfold bind.
  pose proof (g_run_op_spec s o Hr Ho) as HH.
  destruct (g_run_op I o s) as [r s1|p s1| | |]; auto.
  destruct HH as (Hr1 & Hle1 & Hst1 & _). destruct (Hle1 Hco) as [Hle Hb].
  specialize (IH s1 Hr1 Hos Hnos Hcos).
  destruct (g_run_seq I os s1) as [rs s'|p s'| | |]; auto.
  - destruct IH as (Hr' & Hle' & Hb' & Hst'). unfold ret. ands; auto; [lia| |].
    + eapply same_below_trans; [|exact Hb]. eapply same_below_le; [|exact Hb']; lia.
    + eapply stored_cons; eauto.
  - destruct IH as (Hr' & Hle' & Hb'). ands; auto; [lia|].
    eapply same_below_trans; [|exact Hb]. eapply same_below_le; [|exact Hb']; lia.
Qed.

Lemma g_run_seq_positions os : forall s rs s',
  reserve_keeps_pos I inv ->
  ready I inv s -> Forall (op_in_contract empties) os -> Forall no_overflow os ->
  g_run_seq I os s = Ok rs s' -> rs = positions (pos s) os.
Proof.
  induction os as [|o os IH]; intros s rs s' Hk Hr Hf Hn E.
  { cbn in E. inversion E. reflexivity. }
  inversion Hf as [|? ? Ho Hos]; subst. inversion Hn as [|? ? Hno Hnos]; subst.
  cbn [g_run_seq] in E. unfold bind in E.
  pose proof (g_run_op_spec s o Hr Ho) as HH.
  destruct (g_run_op I o s) as [r s1|p s1| | |]; try discriminate.
  destruct HH as (Hr1 & _ & _ & Hpos). destruct (Hpos Hk Hno) as [-> Hp1].
  destruct (g_run_seq I os s1) as [rs1 s2|p s2| | |] eqn:E1; try discriminate.
  unfold ret in E. inversion E; subst. cbn [positions]. f_equal. rewrite <- Hp1.
  eapply IH; eauto.
Qed.

(** with_capacity *)
Lemma g_with_capacity_spec c :
  match g_with_capacity I c tt with
  | Ok s _ => ready I inv s /\ i_pos I s = 0 /\ c <= cap s /\ c <= MAXC
  | Panic p _ => MAXC < c -> p = PWithCapacity
  | Abort => True
  | UB | OutOfFuel => False
  end.
Proof.
  cfg. unfold g_with_capacity.
  erewrite bind_ok by (apply (assert_alignments_valid_ok C)).
  destruct (N.eqb_spec c 0) as [->|Hc].
  { destruct (kc_new _ _ _ _ K) as [Q1 Q2]. unfold ret. ands; auto; try lia.
    split; [exact Q1|]. rewrite Q2. apply N.divide_0_r. }
  destruct (N.leb_spec c MAXC) as [Hle|Hgt].
  2:{ erewrite bind_panic by (apply assert_or_false; reflexivity). reflexivity. }
  erewrite bind_ok by (apply assert_or_true; reflexivity).
  erewrite bind_ok by (apply align_up_to_ok; [apply (c_MVA C)|lia..]).
  assert (Q1 : round_up c MVA <= MAXC) by (apply round_up_least; [lia|apply (c_MVA_MAXC C)|lia]).
  assert (Q2 : c <= round_up c MVA) by (apply round_up_ge; lia).
  pose proof (kc_with_capacity_unchecked _ _ _ _ K (round_up c MVA) ltac:(lia) Q1
               (round_up_divide _ _)) as HH.
  destruct (i_with_capacity_unchecked I (round_up c MVA) tt) as [s []|p []| | |]; auto.
  - destruct HH as (G1 & G2 & G3). ands; auto; try lia. split; [exact G1|].
    rewrite G2. apply N.divide_0_r.
  - lia.
Qed.

End GenFacts.
