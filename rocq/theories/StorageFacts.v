(** * StorageFacts: what each storage operation computes on a storage in order. *)
From Verif Require Import Base Types Storage Spec ArithFacts.
From Coq Require Import ZifyBool ZifyNat ZifyN.
Local Open Scope N_scope.

Section StorageFacts.
Context {P : Params}.

Notation cap w := (s_cap (sw_s w)).
Notation pos w := (s_pos (sw_s w)).
Notation ptr w := (s_ptr (sw_s w)).
Notation buf w := (s_buf (sw_s w)).

(** ** States *)
Definition at_pos (w : sw) (p : N) : sw :=
  with_store w (mkStore (ptr w) (cap w) p (buf w)).

(** The capacity after growing for [need] bytes. *)
Definition grown (c need : N) : N :=
  N.max (N.min (npot need) MAXC) (if c =? 0 then MVA else 0).

Definition moved (w : sw) (a c : N) : sw :=
  mkSW (mkStore a c (pos w)
          (if cap w =? 0 then no_mem
           else fun i => if (i <? cap w) && (i <? c) then buf w i else None))
       (S (sw_calls w))
       (sw_trace w ++ [if cap w =? 0 then EAlloc a c SA
                       else ERealloc (ptr w) (cap w) SA a c]).

Definition grow_to (need : N) : M sw unit :=
  fun w =>
    if need <=? cap w then Ok tt w
    else if MAXC <? need then Panic PCapacity w
    else let c := grown (cap w) need in
         let a := orc (sw_calls w) c in
         if a =? 0 then Abort else Ok tt (moved w a c).

Definition placed (w : sw) (start n : N) (data : mem) (p : N) : sw :=
  with_store w (mkStore (ptr w) (cap w) p (blit (buf w) start n data)).

(** A valid extension of the allocator trace. *)
Definition extends (w w' : sw) : Prop :=
  exists evs, sw_trace w' = sw_trace w ++ evs /\ protocol (block w) evs (block w').

Lemma at_pos_same w : at_pos w (pos w) = w.
Proof. destruct w as [[? ? ? ?] ? ?]. reflexivity. Qed.

Lemma protocol_app b1 e1 b2 e2 b3 :
  protocol b1 e1 b2 -> protocol b2 e2 b3 -> protocol b1 (e1 ++ e2) b3.
Proof.
  intros H. revert e2 b3. induction H; intros; cbn [app]; try (constructor; auto). assumption.
Qed.

Lemma extends_refl w : extends w w.
Proof. exists []. rewrite app_nil_r. split; [reflexivity|constructor]. Qed.

Lemma extends_trans w1 w2 w3 : extends w1 w2 -> extends w2 w3 -> extends w1 w3.
Proof.
  intros (e1 & T1 & P1) (e2 & T2 & P2). exists (e1 ++ e2).
  rewrite T2, T1, app_assoc. split; [reflexivity|]. eapply protocol_app; eassumption.
Qed.

Lemma extends_same w w' :
  sw_trace w' = sw_trace w -> ptr w' = ptr w -> cap w' = cap w -> extends w w'.
Proof.
  intros Ht Hp Hc. exists []. rewrite Ht, app_nil_r. split; [reflexivity|].
  unfold block. rewrite Hp, Hc. constructor.
Qed.

Section Cfg.
Hypothesis C : cfg_ok.
Hypothesis HA : alloc_ok.

Ltac cfg :=
  pose proof (c_SA_pos C); pose proof (c_MVA_pos C); pose proof (c_VA_pos C);
  pose proof (c_VA_MVA C); pose proof (c_MVA_SA C); pose proof (c_MAXC C);
  pose proof (c_MVA_le_MAXC C); pose proof (c_sum C); pose proof (c_umod C);
  pose proof (c_SA_lt_imax C).

Lemma ok_at_pos w p : storage_ok w -> p <= cap w -> (VA | p) -> storage_ok (at_pos w p).
Proof. unfold storage_ok; cbn. tauto. Qed.

Lemma ok_pos_mul w : storage_ok w -> (VA | pos w). Proof. unfold storage_ok; tauto. Qed.
Lemma ok_cap_mul w : storage_ok w -> (MVA | cap w). Proof. unfold storage_ok; tauto. Qed.
Lemma ok_cap_le w : storage_ok w -> cap w <= MAXC. Proof. unfold storage_ok; tauto. Qed.
Lemma ok_pos_le w : storage_ok w -> pos w <= cap w. Proof. unfold storage_ok; tauto. Qed.

Lemma sw_new_ok : storage_ok sw_new.
Proof.
  unfold storage_ok; cbn. repeat split; try apply N.divide_0_r; try lia.
Qed.

(** ** grown *)
Lemma grown_ge c need : need <= MAXC -> need <= grown c need.
Proof. intros H. unfold grown. pose proof (npot_ge need). lia. Qed.

Lemma grown_le c need : grown c need <= MAXC.
Proof. cfg. unfold grown. destruct (c =? 0); lia. Qed.

Lemma grown_mul c need : 0 < need -> c < need -> (MVA | c) -> (MVA | grown c need).
Proof.
  cfg. intros Hn Hc Hd. unfold grown.
  assert (Hm : (MVA | N.max (N.min (npot need) MAXC) MVA)).
  { destruct (N.min_spec (npot need) MAXC) as [[_ ->]|[_ ->]].
    - apply pow2_divide; [apply (c_MVA C)| |lia].
      apply pow2_max; [apply npot_pow2|apply (c_MVA C)].
    - rewrite N.max_l by lia. apply (c_MVA_MAXC C). }
  destruct (N.eqb_spec c 0) as [->|Hc0]; [exact Hm|].
  rewrite N.max_0_r.
  assert (MVA <= c) by (apply divide_le_pos; [exact Hd|lia]).
  rewrite N.max_l in Hm; [exact Hm|].
  pose proof (npot_ge need). lia.
Qed.

Lemma npot_MAXC_umod : npot MAXC < umod.
Proof.
  cfg. assert (npot MAXC <= imax + 1); [|lia].
  apply (npot_spec MAXC ltac:(lia)); [apply (imax_succ_pow2 (c_machine C))|lia].
Qed.

(** ** reserve *)
Lemma grow_for_reserve_eq w n :
  storage_ok w -> n < umod -> cap w < pos w + n ->
  grow_for_reserve n w = grow_to (pos w + n) w.
Proof.
  intros Hok Hn Hlt. cfg.
  pose proof (ok_pos_le w Hok). pose proof (ok_cap_le w Hok). pose proof (ok_cap_mul w Hok).
  unfold grow_for_reserve.
  erewrite bind_ok by (apply dassert_true; unfold ret; do 2 f_equal; lia).
  erewrite bind_ok by reflexivity.
  unfold grow_to. rewrite (proj2 (N.leb_gt _ _) Hlt).
  destruct (N.ltb_spec (pos w + n) umod) as [Hu|Hu].
  2:{ rewrite (proj2 (N.ltb_lt MAXC (pos w + n))) by lia. reflexivity. }
  erewrite bind_ok by reflexivity.
  erewrite bind_ok.
  2:{ unfold next_power_of_two at 1. rewrite (proj2 (N.ltb_lt _ _) npot_MAXC_umod). reflexivity. }
  assert (Hcap : forall need, need = pos w + n ->
     (if npot MAXC / 2 <? need then assert_or PCapacity (need <=? MAXC) ;;; ret MAXC
      else next_power_of_two need) w
     = if MAXC <? need then Panic PCapacity w else Ok (N.min (npot need) MAXC) w).
  { intros need Hneed. destruct (N.ltb_spec (npot MAXC / 2) need) as [Hh|Hh].
    - unfold bind. destruct (N.ltb_spec MAXC need).
      + rewrite assert_or_false by lia. reflexivity.
      + rewrite assert_or_true by lia. unfold ret. f_equal.
        rewrite N.min_r; [reflexivity|].
        destruct (N.eq_dec MAXC 1) as [E1|].
        { pose proof (npot_ge need). lia. }
        destruct (N.le_gt_cases MAXC (npot need)) as [|Hc]; [assumption|exfalso].
        assert (Hd : (npot need | npot MAXC / 2) \/ npot MAXC / 2 < npot need).
        { destruct (N.le_gt_cases (npot need) (npot MAXC / 2)); [left|right; assumption].
          apply pow2_divide; [apply npot_pow2|apply npot_half_pow2; lia|assumption]. }
        destruct Hd as [Hd|Hd].
        { apply divide_le_pos in Hd; [pose proof (npot_ge need); lia|].
          apply pow2_pos, npot_half_pow2; lia. }
        (* npot need is a power of two strictly between npot MAXC / 2 and MAXC *)
        destruct (npot_half_pow2 MAXC ltac:(lia)) as [j Hj].
        destruct (npot_pow2 need) as [i Hi].
        assert (j < i) by (apply (N.pow_lt_mono_r_iff 2); [lia|]; rewrite <- Hi, <- Hj; exact Hd).
        assert (2 ^ N.succ j <= 2 ^ i) by (apply N.pow_le_mono_r; lia).
        rewrite N.pow_succ_r' in *.
        assert (npot MAXC = 2 * 2 ^ j).
        { destruct (npot_pow2 MAXC) as [q Hq].
          assert (0 < q).
          { destruct (N.eq_dec q 0) as [->|]; [|lia]. pose proof (npot_ge MAXC). cbn in Hq. lia. }
          replace q with (N.succ (N.pred q)) in Hq by lia.
          rewrite N.pow_succ_r' in Hq. rewrite Hq in Hj.
          rewrite N.mul_comm, N.div_mul in Hj by lia. lia. }
        pose proof (npot_ge MAXC). lia.
    - assert (1 < MAXC).
      { destruct (N.eq_dec MAXC 1) as [E1|]; [|lia]. rewrite E1 in Hh. cbn in Hh. lia. }
      pose proof (npot_half_lt MAXC ltac:(lia)).
      rewrite (proj2 (N.ltb_ge MAXC need)) by lia.
      assert (npot need <= npot MAXC / 2).
      { apply (npot_spec need ltac:(lia)); [apply npot_half_pow2; lia|assumption]. }
      unfold next_power_of_two. rewrite (proj2 (N.ltb_lt (npot need) umod)) by lia.
      unfold ret. f_equal. lia. }
  specialize (Hcap _ eq_refl).
  destruct (N.ltb_spec MAXC (pos w + n)) as [|Hfit]; [erewrite bind_panic by exact Hcap; reflexivity|].
  erewrite bind_ok by exact Hcap. clear Hcap. erewrite bind_ok by reflexivity.
  pose proof (npot_ge (pos w + n)).
  unfold grown.
  destruct (N.eqb_spec (cap w) 0) as [E0|E0].
  - set (c := N.max (N.min (npot (pos w + n)) MAXC) MVA).
    assert (0 < c <= MAXC) by (unfold c; lia).
    unfold alloc, bind.
    rewrite dassert_true by (unfold ret; do 2 f_equal; lia).
    rewrite dassert_true.
    2:{ unfold bind. rewrite (amc_ok _ SA (c_machine C) (c_SA C) (c_SA_lt_imax C)).
        unfold ret. do 2 f_equal. lia. }
    rewrite (c_legal_le C c) by lia.
    rewrite (proj2 (N.ltb_lt 0 c)) by lia. cbn [andb].
    destruct (N.eqb_spec (orc (sw_calls w) c) 0); [reflexivity|].
    cbv [put_ptr put_cap modify]. cbn. unfold moved, with_store. cbn.
    rewrite E0. cbn. reflexivity.
  - rewrite N.max_0_r.
    set (c := N.min (npot (pos w + n)) MAXC).
    assert (0 < c <= MAXC) by (unfold c; lia).
    unfold realloc, bind. cbv [get_cap gets].
    rewrite dassert_true by (unfold ret; do 2 f_equal; lia).
    rewrite dassert_true by (unfold ret; do 2 f_equal; lia).
    rewrite dassert_true.
    2:{ unfold bind. rewrite (amc_ok _ SA (c_machine C) (c_SA C) (c_SA_lt_imax C)).
        unfold ret. do 2 f_equal. lia. }
    rewrite (c_legal_le C c) by lia. rewrite (c_legal_le C (cap w)) by lia.
    rewrite (proj2 (N.ltb_lt 0 c)) by lia.
    rewrite (proj2 (N.ltb_lt 0 (cap w))) by lia. cbn [andb].
    destruct (N.eqb_spec (orc (sw_calls w) c) 0); [reflexivity|].
    cbv [put_ptr put_cap modify]. cbn. unfold moved, with_store. cbn.
    rewrite (proj2 (N.eqb_neq (cap w) 0) E0). reflexivity.
Qed.

Lemma reserve_eq w n :
  storage_ok w -> n < umod -> reserve n w = grow_to (pos w + n) w.
Proof.
  intros Hok Hn. cfg.
  pose proof (ok_pos_le w Hok). pose proof (ok_cap_le w Hok).
  unfold reserve, bind. cbv [get_cap get_pos gets].
  rewrite wrapping_sub_ok by lia.
  destruct (N.ltb_spec (cap w - pos w) n) as [Hc|Hc].
  - apply grow_for_reserve_eq; auto. lia.
  - unfold grow_to. rewrite (proj2 (N.leb_le _ _)) by lia. reflexivity.
Qed.

(** What [grow_to] guarantees. *)
Lemma grow_to_spec w need :
  storage_ok w ->
  match grow_to need w with
  | Ok _ w' =>
      storage_ok w' /\ pos w' = pos w /\ need <= cap w' /\ need <= MAXC /\
      (forall i, i < cap w -> buf w' i = buf w i) /\
      extends w w' /\
      (need <= cap w -> w' = w) /\
      (cap w < need -> cap w' = grown (cap w) need /\ sw_calls w' = S (sw_calls w) /\
         exists a, sw_trace w' = sw_trace w ++
           [if cap w =? 0 then EAlloc a (grown (cap w) need) SA
            else ERealloc (ptr w) (cap w) SA a (grown (cap w) need)])
  | Panic p w' => p = PCapacity /\ w' = w /\ MAXC < need
  | Abort => alloc_failed
  | UB | OutOfFuel => False
  end.
Proof.
  intros Hok. cfg. unfold grow_to.
  pose proof (ok_cap_le w Hok). pose proof (ok_pos_le w Hok).
  destruct (N.leb_spec need (cap w)) as [Hle|Hgt].
  { ands; auto; try lia. apply extends_refl. }
  destruct (N.ltb_spec MAXC need) as [|Hfit]; [auto|].
  destruct (N.eqb_spec (orc (sw_calls w) (grown (cap w) need)) 0) as [E0|E0].
  { exists (sw_calls w), (grown (cap w) need). ands; auto.
    - pose proof (grown_ge (cap w) need ltac:(lia)). lia.
    - apply grown_le; lia. }
  set (c := grown (cap w) need) in *. set (a := orc (sw_calls w) c) in *.
  assert (Hc1 : need <= c) by (apply grown_ge; lia).
  assert (Hc2 : c <= MAXC) by apply grown_le.
  assert (Hc3 : (MVA | c)) by (apply grown_mul; try lia; apply ok_cap_mul; exact Hok).
  destruct (HA (sw_calls w) c) as [|[Ha1 Ha2]]; [contradiction|]. fold a in Ha1, Ha2.
  split.
  { unfold storage_ok, moved; cbn. destruct Hok as (_ & _ & _ & Hva & _).
    repeat split; auto; try lia. }
  split; [reflexivity|]. split; [exact Hc1|]. split; [exact Hfit|].
  split.
  { intros i Hi. unfold moved; cbn. destruct (N.eqb_spec (cap w) 0); [lia|].
    rewrite (proj2 (N.ltb_lt i (cap w))) by lia.
    rewrite (proj2 (N.ltb_lt i c)) by lia. reflexivity. }
  split.
  { eexists; split; [reflexivity|].
    assert (legal_layout c SA).
    { apply layout_legal_spec; [apply (c_machine C)|lia|apply (c_legal_le C); lia]. }
    unfold block, moved; cbn. destruct (N.eqb_spec c 0); [lia|].
    destruct (N.eqb_spec (cap w) 0);
      (constructor; [lia|assumption|assumption|assumption|constructor]). }
  split; [lia|]. intros _. split; [reflexivity|split; [reflexivity|]].
  exists a. reflexivity.
Qed.

(** ** align *)
Lemma set_pos_eq w p :
  p <= cap w -> (VA | p) -> set_pos p w = Ok tt (at_pos w p).
Proof.
  intros Hp Hd. unfold set_pos, bind. cbv [get_cap gets].
  rewrite dassert_true by (unfold ret; do 2 f_equal; lia).
  rewrite dassert_true by (apply is_aligned_to_true; [apply (c_VA C)|exact Hd]).
  reflexivity.
Qed.

Lemma align_eq w a :
  pow2 a -> VA <= a -> a <= MVA ->
  (MVA | cap w) -> cap w <= MAXC -> pos w <= cap w ->
  align a w = Ok tt (at_pos w (round_up (pos w) a)) /\ round_up (pos w) a <= cap w.
Proof.
  intros Ha Hva Hmva Hd Hc Hp. cfg.
  assert (Hr : round_up (pos w) a <= cap w).
  { apply round_up_least; [lia| |exact Hp].
    eapply divide_trans; [|exact Hd]. apply pow2_divide; auto. apply (c_MVA C). }
  split; [|exact Hr].
  unfold align, bind.
  rewrite dassert_true by (unfold ret; do 2 f_equal; lia).
  rewrite dassert_true by (unfold ret; do 2 f_equal; lia).
  rewrite dassert_true by (unfold ret; rewrite (proj2 (is_pow2_spec a) Ha); reflexivity).
  cbv [get_pos gets]. rewrite align_up_to_ok by (auto; lia).
  apply set_pos_eq; [exact Hr|].
  eapply divide_trans; [|apply round_up_divide].
  apply pow2_divide; auto. apply (c_VA C).
Qed.

Lemma push_start_ge p l : pow2 (l_align l) -> p <= push_start p l.
Proof. intros H. cfg. unfold push_start. apply round_up_ge. lia. Qed.

Lemma push_start_VA p l : pow2 (l_align l) -> (VA | push_start p l).
Proof.
  intros H. unfold push_start. eapply divide_trans; [|apply round_up_divide].
  apply pow2_divide; [apply (c_VA C)|apply pow2_max; [exact H|apply (c_VA C)]|lia].
Qed.

Lemma push_start_align p l : pow2 (l_align l) -> (l_align l | push_start p l).
Proof.
  intros H. unfold push_start. eapply divide_trans; [|apply round_up_divide].
  apply pow2_divide; [exact H|apply pow2_max; [exact H|apply (c_VA C)]|lia].
Qed.

Lemma push_start_le_mul p l c :
  pow2 (l_align l) -> l_align l <= MVA -> (MVA | c) -> p <= c -> push_start p l <= c.
Proof.
  intros H Hl Hd Hp. cfg. unfold push_start. apply round_up_least; [lia| |exact Hp].
  eapply divide_trans; [|exact Hd].
  apply pow2_divide; [apply pow2_max; [exact H|apply (c_VA C)]|apply (c_MVA C)|lia].
Qed.

Lemma push_end_ge p l n : push_start p l + l_size l * n <= push_end p l n.
Proof. cfg. unfold push_end. apply round_up_ge. lia. Qed.

Lemma push_end_VA p l n : (VA | push_end p l n).
Proof. apply round_up_divide. Qed.

Lemma push_end_le_mul p l n c :
  (MVA | c) -> push_start p l + l_size l * n <= c -> push_end p l n <= c.
Proof.
  intros Hd Hle. cfg. unfold push_end. apply round_up_least; [lia| |exact Hle].
  eapply divide_trans; [apply (c_VA_dvd_MVA C)|exact Hd].
Qed.

Lemma align_for_eq w l :
  pow2 (l_align l) -> l_align l <= MVA -> storage_ok w ->
  align_for l w = Ok tt (at_pos w (push_start (pos w) l)) /\
  push_start (pos w) l <= cap w.
Proof.
  intros Ha Hl Hok. cfg.
  assert (Hle : push_start (pos w) l <= cap w).
  { apply push_start_le_mul; auto; [apply ok_cap_mul|apply ok_pos_le]; exact Hok. }
  split; [|exact Hle].
  unfold align_for, push_start.
  destruct (N.ltb_spec VA (l_align l)) as [Hlt|Hge].
  - rewrite N.max_l by lia. apply align_eq; auto; try lia;
      [apply ok_cap_mul|apply ok_cap_le|apply ok_pos_le]; exact Hok.
  - rewrite N.max_r by lia. rewrite round_up_id by (try lia; apply ok_pos_mul; exact Hok).
    rewrite at_pos_same. reflexivity.
Qed.

(** ** push_slice *)
Lemma write_slice_eq w p l len data :
  good_layout l -> cap w < umod ->
  p + l_size l * len <= cap w -> (l_align l | p) ->
  (l_size l = 0 \/ (0 < cap w /\ (SA | ptr w)) \/ (l_align l | ptr w)) ->
  write_slice p l len data w =
    Ok tt (if l_size l =? 0 then w else placed w p (l_size l * len) data (pos w)).
Proof.
  intros (Ha & Hsz & Himax & Hmva) Hcap Hle Hd Hptr. cfg.
  pose proof (pow2_pos _ Ha).
  unfold write_slice, bind. cbv [get_cap gets].
  rewrite dassert_true by (unfold ret; do 2 f_equal; lia).
  rewrite dassert_true.
  2:{ unfold bind. rewrite sub_u_ok by lia. rewrite mul_u_ok by lia.
      unfold ret; do 2 f_equal; lia. }
  rewrite dassert_true by (apply is_aligned_to_true; assumption).
  destruct (N.eqb_spec (l_size l) 0) as [|Hnz]; [reflexivity|].
  rewrite (proj2 (N.leb_le _ _)) by lia.
  assert ((l_align l | ptr w + p)) as Hal.
  { apply N.divide_add_r; [|exact Hd].
    destruct Hptr as [?|[[_ Hp]|Hp]]; [lia| |exact Hp].
    eapply divide_trans; [|exact Hp]. eapply divide_trans; [|apply (c_MVA_dvd_SA C)].
    apply pow2_divide; auto. apply (c_MVA C). }
  rewrite (proj2 (mod_eqb_divide (l_align l) _ ltac:(lia)) Hal). cbn [andb].
  reflexivity.
Qed.

Lemma push_slice_unchecked_eq w l len data :
  good_layout l -> 0 < l_size l -> cap w < umod ->
  pos w + l_size l * len <= cap w -> (l_align l | pos w) ->
  ((0 < cap w /\ (SA | ptr w)) \/ (l_align l | ptr w)) ->
  push_slice_unchecked l len data (l_size l * len) w =
    Ok tt (placed w (pos w) (l_size l * len) data (pos w + l_size l * len)).
Proof.
  intros Hg Hs Hcap Hle Hd Hptr. cfg.
  unfold push_slice_unchecked, bind.
  rewrite dassert_true.
  2:{ unfold bind. cbv [get_cap get_pos gets]. rewrite sub_u_ok by lia.
      unfold ret; do 2 f_equal; lia. }
  rewrite dassert_true.
  2:{ unfold bind. rewrite mul_u_ok by lia. unfold ret; do 2 f_equal; lia. }
  rewrite dassert_true.
  2:{ unfold bind. cbv [get_pos gets]. apply is_aligned_to_true; [apply Hg|exact Hd]. }
  destruct (N.eqb_spec (l_size l) 0) as [|_]; [lia|].
  cbv [get_pos gets].
  rewrite (write_slice_eq w (pos w) l len data Hg Hcap Hle Hd ltac:(tauto)).
  destruct (N.eqb_spec (l_size l) 0) as [|_]; [lia|].
  cbn. rewrite add_u_ok by lia. reflexivity.
Qed.

Lemma align_after_eq w l n :
  0 < l_size l ->
  (MVA | cap w) -> cap w <= MAXC -> pos w <= cap w -> 
  (exists s, (VA | s) /\ pos w = s + l_size l * n) ->
  align_after l w = Ok tt (at_pos w (round_up (pos w) VA)).
Proof.
  intros Hs Hd Hc Hp (s & Hs1 & Hs2). cfg. unfold align_after.
  destruct (N.ltb_spec 0 (l_size l mod VA)) as [Hlt|Hge].
  - unfold align_after_any. apply align_eq; auto; try lia. apply (c_VA C).
  - assert ((VA | l_size l)) by (apply N.mod_divide; [lia|apply N.le_0_r; exact Hge]).
    rewrite round_up_id; [rewrite at_pos_same; reflexivity|lia|].
    rewrite Hs2. apply N.divide_add_r; [exact Hs1|].
    apply N.divide_mul_l. assumption.
Qed.

(** The whole of push_slice on a storage in order. *)
Lemma push_slice_eq w l len data :
  storage_ok w -> good_layout l -> 0 < l_size l -> l_size l * len <= imax ->
  (0 < len \/ 0 < cap w \/ l_align l = 1) ->
  push_slice l len data w =
    (grow_to (push_start (pos w) l + l_size l * len) ;;;
     fun w1 => Ok (push_start (pos w) l)
                  (placed w1 (push_start (pos w) l) (l_size l * len) data (push_end (pos w) l len)))
    (at_pos w (push_start (pos w) l)).
Proof.
  intros Hok Hg Hs Hsz Hne. cfg.
  pose proof Hg as (Ha & Hg2 & Hg3 & Hg4).
  destruct (align_for_eq w l Ha Hg4 Hok) as [Haf Hst].
  unfold push_slice. destruct (N.eqb_spec (l_size l) 0) as [|_]; [lia|].
  unfold bind at 1. rewrite Haf.
  unfold bind at 1. rewrite mul_u_ok by lia.
  set (start := push_start (pos w) l) in *.
  assert (HstVA : (VA | start)) by (apply push_start_VA; exact Ha).
  assert (Hok1 : storage_ok (at_pos w start)) by (apply ok_at_pos; assumption).
  unfold bind at 1. rewrite reserve_eq by (try lia; exact Hok1). cbn [s_pos sw_s at_pos with_store].
  unfold bind at 4.
  pose proof (grow_to_spec (at_pos w start) (start + l_size l * len) Hok1) as Hgs.
  destruct (grow_to (start + l_size l * len) (at_pos w start)) as [[] w1|p w1| | |]; try reflexivity.
  destruct Hgs as (Hok2 & Hpos & Hcap & _ & _ & _ & Hnogrow & _).
  cbn [s_pos sw_s at_pos with_store] in Hpos.
  unfold bind at 1. cbv [get_pos gets]. 
  assert (Hcu : cap w1 < umod) by (pose proof (ok_cap_le w1 Hok2); lia).
  assert (Hptr : (0 < cap w1 /\ (SA | ptr w1)) \/ (l_align l | ptr w1)).
  { destruct (N.eq_dec (cap w1) 0) as [E0|E0].
    - destruct Hne as [Hne|[Hne|Hne]].
      + exfalso. assert (0 < l_size l * len) by (apply N.mul_pos_pos; lia). lia.
      + exfalso. rewrite Hnogrow in E0 by (cbn; lia). cbn in E0. lia.
      + right. rewrite Hne. apply N.divide_1_l.
    - left. split; [lia|]. apply Hok2. lia. }
  unfold bind at 1.
  rewrite (push_slice_unchecked_eq w1 l len data Hg Hs Hcu); [|rewrite Hpos; exact Hcap|
    rewrite Hpos; apply push_start_align; exact Ha|exact Hptr].
  rewrite Hpos. unfold bind at 1.
  rewrite (align_after_eq _ l len); [reflexivity|exact Hs| | | |].
  - cbn. apply ok_cap_mul; exact Hok2.
  - cbn. apply ok_cap_le; exact Hok2.
  - cbn. exact Hcap.
  - cbn. exists start. split; [exact HstVA|reflexivity].
Qed.

Lemma push_slice_zst w l len data : l_size l = 0 -> push_slice l len data w = Ok 0 w.
Proof. intros H. unfold push_slice. rewrite H. reflexivity. Qed.

(** Summary used by everything above the storage. *)
Lemma push_slice_spec w l len data :
  storage_ok w -> good_layout l -> 0 < l_size l -> l_size l * len <= imax ->
  (0 < len \/ 0 < cap w \/ l_align l = 1) ->
  match push_slice l len data w with
  | Ok p w' =>
      p = push_start (pos w) l /\ pos w' = push_end (pos w) l len /\
      storage_ok w' /\ push_end (pos w) l len <= MAXC /\
      (forall i, i < pos w -> buf w' i = buf w i) /\
      (forall i, i < l_size l * len -> buf w' (p + i) = data i) /\
      extends w w' /\
      (push_end (pos w) l len <= cap w ->
         ptr w' = ptr w /\ cap w' = cap w /\
         sw_calls w' = sw_calls w /\ sw_trace w' = sw_trace w)
  | Panic p w' =>
      p = PCapacity /\ w' = at_pos w (push_start (pos w) l) /\ storage_ok w' /\
      MAXC < push_end (pos w) l len
  | Abort => alloc_failed
  | UB | OutOfFuel => False
  end.
Proof.
  intros Hok Hg Hs Hsz Hne. cfg.
  rewrite push_slice_eq by assumption.
  pose proof Hg as (Ha & Hg2 & Hg3 & Hg4).
  assert (Hst : push_start (pos w) l <= cap w)
    by (apply push_start_le_mul; auto; [apply ok_cap_mul|apply ok_pos_le]; exact Hok).
  set (start := push_start (pos w) l) in *.
  assert (HstVA : (VA | start)) by (apply push_start_VA; exact Ha).
  assert (Hok1 : storage_ok (at_pos w start)) by (apply ok_at_pos; assumption).
  assert (Hge : pos w <= start) by (apply push_start_ge; exact Ha).
  pose proof (push_end_ge (pos w) l len) as Hpe. fold start in Hpe.
  unfold bind.
  pose proof (grow_to_spec (at_pos w start) (start + l_size l * len) Hok1) as Hgs.
  destruct (grow_to (start + l_size l * len) (at_pos w start)) as [[] w1|p w1| | |]; auto.
  - destruct Hgs as (Hok2 & Hpos & Hcap & Hmax & Hbuf & Hext & Hnogrow & _).
    cbn [s_pos sw_s at_pos with_store s_cap s_buf] in *.
    assert (Hpe2 : push_end (pos w) l len <= cap w1)
      by (apply push_end_le_mul; [apply ok_cap_mul; exact Hok2|exact Hcap]).
    split; [reflexivity|]. split; [reflexivity|].
    split.
    { destruct Hok2 as (A & B & _ & _ & D & F). unfold storage_ok; cbn.
      repeat split; auto; try (apply F; assumption). apply push_end_VA. }
    split; [pose proof (ok_cap_le w1 Hok2); lia|].
    split.
    { intros i Hi. cbn. unfold blit.
      rewrite (proj2 (N.leb_gt start i)) by lia. cbn. apply Hbuf. lia. }
    split.
    { intros i Hi. cbn. unfold blit.
      rewrite (proj2 (N.leb_le start (start + i))) by lia.
      rewrite (proj2 (N.ltb_lt (start + i) _)) by lia. cbn. f_equal; lia. }
    split.
    { eapply extends_trans; [|eapply extends_trans; [exact Hext|]]; apply extends_same; reflexivity. }
    intros Hc. rewrite Hnogrow by lia. cbn. auto.
  - destruct Hgs as (-> & -> & Hm). ands; auto. lia.
Qed.

End Cfg.
End StorageFacts.
