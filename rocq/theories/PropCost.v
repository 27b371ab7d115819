(** * PropCost: what storage calls cost (C58).

    [bytes_moved], [op_need] and [peak] are in Spec.v. *)
From Verif Require Import Base Types Storage Spec ArithFacts StorageFacts StorageHist Cost PropStorage.
From Coq Require Import ZifyBool ZifyNat ZifyN.
Local Open Scope N_scope.

(** ** C58: copying done by growth is linear *)

(** However many calls are made (calls that panic included), the reallocations of a
    history without shrink_to_fit copy at most twice the capacity reached. *)
Theorem C58_copying {P : Params} : forall os w w',
  cfg_ok -> alloc_ok -> storage_ok w -> Forall op_valid os -> ~ In OShrink os ->
  run_ops os w = Ok tt w' ->
  exists es, sw_trace w' = sw_trace w ++ es /\ bytes_moved es <= 2 * s_cap (sw_s w').
Proof. intros os w w' C HA. apply no_shrink_moved; assumption. Qed.

(** And the capacity reached is at most twice what was ever asked for. *)
Theorem C58_capacity {P : Params} : forall os w rs w',
  cfg_ok -> alloc_ok -> storage_ok w -> Forall op_valid os -> Forall no_overflow os ->
  run_seq os w = Ok rs w' ->
  s_cap (sw_s w') <= N.max (s_cap (sw_s w)) (N.max MVA (2 * peak (s_pos (sw_s w)) os)).
Proof. intros os w rs w' C HA. apply run_seq_cap; assumption. Qed.

Definition is_push (o : sop) : Prop :=
  match o with OPush _ _ | OPushSlice _ _ _ | OPushBytes _ _ => True | _ => False end.

Lemma push_step {P : Params} o p :
  cfg_ok -> op_valid o -> is_push o -> op_need p o <= op_next p o /\ p <= op_next p o.
Proof.
  intros C Hv Hp. pose proof (c_VA_pos C).
  assert (G : forall l n, pow2 (l_align l) ->
    push_start p l + l_size l * n <= push_end p l n /\ p <= push_end p l n).
  { intros l n Ha. pose proof (push_start_ge C p l Ha). unfold push_end.
    pose proof (round_up_ge (push_start p l + l_size l * n) VA ltac:(lia)). lia. }
  destruct o as [l d|l n d|n d|l|l n|n|l|l| | |]; try contradiction; cbn [op_need op_next op_valid] in *.
  - destruct (l_size l =? 0); [lia|]. specialize (G l 1 ltac:(apply Hv)). lia.
  - destruct (l_size l =? 0); [lia|]. apply (G l n). apply Hv.
  - specialize (G u8_layout n (proj1 (u8_good C))). unfold u8_layout at 2 in G. cbn [l_size] in G. lia.
Qed.

Lemma push_peak {P : Params} os : forall w rs w',
  cfg_ok -> alloc_ok -> storage_ok w -> Forall op_valid os -> Forall is_push os ->
  run_seq os w = Ok rs w' ->
  peak (s_pos (sw_s w)) os <= s_pos (sw_s w') /\ s_pos (sw_s w) <= s_pos (sw_s w').
Proof.
  induction os as [|o os IH]; intros w rs w' C HA Hok Hv Hp Hr.
  - cbn in *. inversion Hr; subst. lia.
  - inversion Hv; subst. inversion Hp; subst. cbn [run_seq peak] in *.
    unfold bind in Hr. destruct (run_op o w) as [r w1|? ?| | |] eqn:E1; try discriminate.
    destruct (run_seq os w1) as [rs1 w2|? ?| | |] eqn:E2; try discriminate.
    inversion Hr; subst.
    assert (no_overflow o) by (destruct o; try contradiction; exact I).
    destruct (run_op_pos C HA w o r w1) as [-> Hq]; auto.
    pose proof (run_op_spec C HA w o Hok) as Hs. rewrite E1 in Hs. destruct Hs as (Hok1 & _); auto.
    specialize (IH w1 rs1 w' C HA Hok1 ltac:(assumption) ltac:(assumption) E2).
    pose proof (push_step o (s_pos (sw_s w)) C ltac:(assumption) ltac:(assumption)).
    rewrite Hq in IH. lia.
Qed.

(** So building an output of [n] bytes by pushes alone, from an empty storage, copies
    fewer than 4 [n] + 2 MAX_VALUE_ALIGNMENT bytes and occupies fewer than
    2 [n] + MAX_VALUE_ALIGNMENT. *)
Theorem C58_linear {P : Params} : forall os rs w,
  cfg_ok -> alloc_ok -> Forall op_valid os -> Forall is_push os ->
  run_seq os sw_new = Ok rs w ->
  s_cap (sw_s w) <= N.max MVA (2 * s_pos (sw_s w)) /\
  bytes_moved (sw_trace w) <= 2 * N.max MVA (2 * s_pos (sw_s w)).
Proof.
  intros os rs w C HA Hv Hp Hr.
  assert (Hno : Forall no_overflow os)
    by (eapply Forall_impl; [|exact Hp]; intros []; try contradiction; intros; exact I).
  assert (Hns : ~ In OShrink os)
    by (intros Hin; rewrite Forall_forall in Hp; exact (Hp _ Hin)).
  pose proof sw_new_ok as Hok.
  destruct (push_peak os sw_new rs w C HA Hok Hv Hp Hr) as [H1 _].
  pose proof (run_seq_cap C HA os sw_new rs w Hok Hv Hno Hr) as H2.
  destruct (no_shrink_moved C HA os sw_new w Hok Hv Hns (run_seq_ops os _ _ _ Hr)) as (es & E & H3).
  cbn [sw_trace sw_new app] in E. rewrite <- E in H3.
  change (s_cap (sw_s sw_new)) with 0 in H2.
  revert H1 H2 H3. generalize (peak (s_pos (sw_s sw_new)) os). intros; lia.
Qed.

(** Twenty pushes of 100 bytes: capacity 128, 256, ..., 4096; 3968 bytes copied. *)
Example C58_witness :
  let os := repeat (OPushBytes 100 no_mem) 20 in
  Forall is_push os /\
  match @run_seq demo os sw_new with
  | Ok _ w => s_pos (sw_s w) = 2080 /\ s_cap (sw_s w) = 4096 /\ bytes_moved (sw_trace w) = 3968
  | _ => False
  end.
Proof.
  split; [apply Forall_forall; intros o H; apply repeat_spec in H; subst; exact I|].
  vm_compute. repeat split.
Qed.
