(** * Cost: what a history of storage calls costs: capacity reached and bytes copied. *)
From Verif Require Import Base Types Storage Spec ArithFacts StorageFacts StorageHist.
From Coq Require Import ZifyBool ZifyNat ZifyN.
Local Open Scope N_scope.

Section Cost.
Context {P : Params}.

Notation cap w := (s_cap (sw_s w)).
Notation pos w := (s_pos (sw_s w)).
Notation ptr w := (s_ptr (sw_s w)).
Notation buf w := (s_buf (sw_s w)).

Section Cfg.
Hypothesis C : cfg_ok.
Hypothesis HA : alloc_ok.

Ltac cfg :=
  pose proof (c_SA_pos C); pose proof (c_MVA_pos C); pose proof (c_VA_pos C);
  pose proof (c_VA_MVA C); pose proof (c_MVA_SA C); pose proof (c_MAXC C);
  pose proof (c_MVA_le_MAXC C); pose proof (c_sum C); pose proof (c_umod C);
  pose proof (c_SA_lt_imax C).

(** The capacity after asking for [need] bytes in all. *)
Definition cap_after (c need : N) : N := if need <=? c then c else grown c need.

Lemma grow_to_cap w need w' :
  storage_ok w -> grow_to need w = Ok tt w' -> cap w' = cap_after (cap w) need.
Proof.
  intros Hok Hr. pose proof (grow_to_spec C HA w need Hok) as H. rewrite Hr in H.
  destruct H as (_ & _ & _ & _ & _ & _ & H1 & H2). unfold cap_after.
  destruct (N.leb_spec need (cap w)); [rewrite H1 by assumption; reflexivity|apply H2; assumption].
Qed.

Lemma cap_after_0 c : cap_after c 0 = c.
Proof. unfold cap_after. destruct (N.leb_spec 0 c); [reflexivity|lia]. Qed.

Lemma push_slice_cap w l n d r w' :
  storage_ok w -> good_layout l -> l_size l * n <= imax ->
  push_slice l n d w = Ok r w' ->
  cap w' = cap_after (cap w) (if l_size l =? 0 then 0 else push_start (pos w) l + l_size l * n).
Proof.
  intros Hok Hg Hsz Hr. cfg. pose proof Hg as (Ha & _ & _ & Hmva).
  destruct (N.eqb_spec (l_size l) 0) as [E0|E0].
  { rewrite push_slice_zst in Hr by exact E0. inversion Hr; subst. rewrite cap_after_0. reflexivity. }
  assert (Hne : (n = 0 /\ 0 < l_size l /\ 1 < l_align l /\ cap w = 0) \/
                (0 < n \/ 0 < cap w \/ l_align l = 1))
    by (pose proof (pow2_pos _ Ha); lia).
  destruct Hne as [(-> & H1' & H2' & H3')|Hne].
  { rewrite (empty_push_UB C) in Hr by assumption. discriminate. }
  rewrite (push_slice_eq C HA) in Hr by (auto; lia).
  assert (Hok1 : storage_ok (at_pos w (push_start (pos w) l))).
  { apply ok_at_pos; auto; [|apply push_start_VA; auto].
    apply push_start_le_mul; auto; [apply ok_cap_mul|apply ok_pos_le]; exact Hok. }
  unfold bind in Hr.
  destruct (grow_to (push_start (pos w) l + l_size l * n) (at_pos w (push_start (pos w) l)))
    as [[] w1|? ?| | |] eqn:E; try discriminate.
  inversion Hr; subst. apply (grow_to_cap _ _ _ Hok1 E).
Qed.

Lemma push_empty_slice_cap w l n r w' :
  storage_ok w -> good_layout l -> l_size l * n < umod ->
  push_empty_slice l n w = Ok r w' ->
  cap w' = cap_after (cap w) (push_start (pos w) l + l_size l * n).
Proof.
  intros Hok Hg Hn Hr. pose proof Hg as (Ha & _ & _ & Hmva).
  rewrite (push_empty_slice_eq C HA w l n (l_size l * n) Hok Hg Hn) in Hr
    by (intros; apply mul_u_ok; exact Hn).
  assert (Hok1 : storage_ok (at_pos w (push_start (pos w) l))).
  { apply ok_at_pos; auto; [|apply push_start_VA; auto].
    apply push_start_le_mul; auto; [apply ok_cap_mul|apply ok_pos_le]; exact Hok. }
  unfold bind in Hr.
  destruct (grow_to (push_start (pos w) l + l_size l * n) (at_pos w (push_start (pos w) l)))
    as [[] w1|? ?| | |] eqn:E; try discriminate.
  destruct (set_pos_panics _); try discriminate.
  inversion Hr; subst. apply (grow_to_cap _ _ _ Hok1 E).
Qed.

Lemma run_op_cap w o r w' :
  storage_ok w -> op_valid o -> no_overflow o -> o <> OShrink ->
  run_op o w = Ok r w' -> cap w' = cap_after (cap w) (op_need (pos w) o).
Proof.
  intros Hok Hv Hno Hns Hr. cfg.
  pose proof (ok_pos_le w Hok). pose proof (ok_cap_le w Hok). pose proof (ok_cap_mul w Hok).
  assert (Hsome : forall (m : M sw N) r w', some_pos m w = Ok r w' -> exists p, m w = Ok p w').
  { intros m r' wx. unfold some_pos, bind, ret. destruct (m w); try discriminate.
    intros E; inversion E; subst. eexists; reflexivity. }
  assert (Hnone : forall (m : M sw unit) r w', no_pos m w = Ok r w' -> m w = Ok tt w').
  { intros m r' wx. unfold no_pos, bind, ret. destruct (m w) as [[] ?|? ?| | |]; try discriminate.
    intros E; inversion E; subst. reflexivity. }
  destruct o as [l d|l n d|n d|l|l n|n|l|l| | |]; cbn [run_op op_valid op_need no_overflow] in *;
    try (apply Hsome in Hr; destruct Hr as [p Hr]); try apply Hnone in Hr.
  - unfold push in Hr. rewrite (push_slice_cap w l 1 d p w' Hok Hv ltac:(destruct Hv; lia) Hr).
    rewrite N.mul_1_r. reflexivity.
  - destruct Hv as [Hg Hsz]. exact (push_slice_cap w l n d p w' Hok Hg Hsz Hr).
  - unfold push_bytes in Hr.
    rewrite (push_slice_cap w u8_layout n d p w' Hok (u8_good C)
               ltac:(unfold u8_layout; cbn [l_size]; lia) Hr).
    unfold u8_layout at 1 3; cbn [l_size]. cbn [N.eqb]. rewrite N.mul_1_l. reflexivity.
  - unfold push_empty in Hr.
    rewrite (push_empty_slice_cap w l 1 p w' Hok Hv ltac:(destruct Hv; lia) Hr).
    rewrite N.mul_1_r. reflexivity.
  - destruct Hv as [Hg _]. exact (push_empty_slice_cap w l n p w' Hok Hg Hno Hr).
  - rewrite (reserve_eq C) in Hr by assumption. exact (grow_to_cap _ _ _ Hok Hr).
  - destruct Hv as (Ha & _ & _ & Hl).
    destruct (align_for_eq C w l Ha Hl Hok) as [Haf Hst].
    rewrite Haf in Hr. inversion Hr; subst. rewrite cap_after_0. reflexivity.
  - unfold align_after in Hr. destruct (0 <? l_size l mod VA).
    + unfold align_after_any in Hr.
      destruct (align_eq C w VA (c_VA C) ltac:(lia) ltac:(lia)) as [E Hle]; auto.
      rewrite E in Hr. inversion Hr; subst. rewrite cap_after_0. reflexivity.
    + inversion Hr; subst. rewrite cap_after_0. reflexivity.
  - unfold align_after_any in Hr.
    destruct (align_eq C w VA (c_VA C) ltac:(lia) ltac:(lia)) as [E Hle]; auto.
    rewrite E in Hr. inversion Hr; subst. rewrite cap_after_0. reflexivity.
  - unfold clear in Hr. rewrite (set_pos_eq C w 0 ltac:(lia) (N.divide_0_r _)) in Hr.
    inversion Hr; subst. rewrite cap_after_0. reflexivity.
  - congruence.
Qed.

Lemma npot_lt_double n : 0 < n -> npot n < 2 * n.
Proof.
  intros Hn. destruct (N.eq_dec n 1) as [->|]; [reflexivity|].
  pose proof (npot_half_lt n ltac:(lia)) as H.
  pose proof (N.div_mod (npot n) 2 ltac:(lia)) as Hd.
  assert (npot n mod 2 = 0) as Hm.
  2:{ rewrite Hm in Hd. revert H Hd. generalize (npot n / 2) (npot n). intros; lia. }
  clear H Hd.
  unfold npot. assert (0 < N.log2_up n) by (apply N.log2_up_pos; lia).
  replace (N.log2_up n) with (N.succ (N.pred (N.log2_up n))) by lia.
  rewrite N.pow_succ_r', N.mul_comm. apply N.mod_mul. lia.
Qed.

Lemma cap_after_bound c need :
  cap_after c need <= N.max c (N.max MVA (2 * need)).
Proof.
  unfold cap_after. destruct (N.leb_spec need c); [lia|].
  pose proof (npot_lt_double need ltac:(lia)). unfold grown.
  pose proof (npot_ge need). destruct (c =? 0); lia.
Qed.

Lemma run_seq_cap os : forall w rs w',
  storage_ok w -> Forall op_valid os -> Forall no_overflow os ->
  run_seq os w = Ok rs w' ->
  cap w' <= N.max (cap w) (N.max MVA (2 * peak (pos w) os)).
Proof.
  induction os as [|o os IH]; intros w rs w' Hok Hv Hn Hr.
  - cbn in Hr. inversion Hr; subst. lia.
  - inversion Hv; subst. inversion Hn; subst. cbn [run_seq peak] in *.
    unfold bind in Hr. destruct (run_op o w) as [r w1|? ?| | |] eqn:E1; try discriminate.
    destruct (run_seq os w1) as [rs1 w2|? ?| | |] eqn:E2; try discriminate.
    unfold ret in Hr. inversion Hr; subst.
    destruct (run_op_pos C HA w o r w1) as [-> Hp]; auto.
    pose proof (run_op_spec C HA w o Hok) as Hs. rewrite E1 in Hs. destruct Hs as (Hok1 & _); auto.
    specialize (IH w1 rs1 w' Hok1 ltac:(assumption) ltac:(assumption) E2). rewrite Hp in IH.
    assert (cap w1 <= N.max (cap w) (N.max MVA (2 * op_need (pos w) o))); [|lia].
    destruct (match o with OShrink => true | _ => false end) eqn:Eo.
    + destruct o; try discriminate. cbn [run_op] in E1. unfold no_pos, bind in E1.
      rewrite (shrink_eq C) in E1 by exact Hok. cbv zeta in E1.
      assert (round_up (pos w) MVA <= cap w).
      { cfg. apply round_up_least; [lia|apply ok_cap_mul|apply ok_pos_le]; exact Hok. }
      destruct (round_up (pos w) MVA =? cap w); [inversion E1; subst; lia|].
      destruct (round_up (pos w) MVA =? 0); [inversion E1; subst; cbn; lia|].
      destruct (orc _ _ =? 0); inversion E1; subst. cbn. lia.
    + rewrite (run_op_cap w o _ w1) with (5 := E1); auto; [|destruct o; discriminate].
      apply cap_after_bound.
Qed.

(** The bytes copied. *)
Lemma no_shrink_moved os w w' :
  storage_ok w -> Forall op_valid os -> ~ In OShrink os ->
  run_ops os w = Ok tt w' ->
  exists es, sw_trace w' = sw_trace w ++ es /\ bytes_moved es <= 2 * cap w'.
Proof.
  intros Hok Hv Hns Hr. pose proof (run_ops_spec C HA os w Hok Hv) as H. rewrite Hr in H.
  destruct H as (A & (es & Hes & _) & B). specialize (B Hns). destruct B as [_ B].
  exists es. split; [exact Hes|]. rewrite Hes, bytes_moved_app in B.
  pose proof (phi_le (cap w')). lia.
Qed.

(** Histories that stop at a panic are histories. *)
Lemma run_seq_ops os : forall w rs w', run_seq os w = Ok rs w' -> run_ops os w = Ok tt w'.
Proof.
  induction os as [|o os IH]; intros w rs w' Hr; cbn [run_seq run_ops] in *.
  - inversion Hr; reflexivity.
  - unfold bind in Hr. destruct (run_op o w) as [r w1|? ?| | |]; try discriminate.
    destruct (run_seq os w1) as [rs1 w2|? ?| | |] eqn:E2; try discriminate.
    inversion Hr; subst. eapply IH; exact E2.
Qed.

End Cfg.
End Cost.
