(** * PropGenRecord: C97 — the pointers a serializer remembers, whatever the implementations do and whatever storage it writes to. *)
From Coq Require Import List Arith Lia.
From Verif Require Import Base Types Storage Serializer Serialize Spec ArithFacts StorageFacts StorageHist MemFacts TypeFacts SerFacts SerMain SerValue SerRoot SerProps
  Client ClientSpec ClientFacts PropClient PropResume
  GenStorage GenSpec GenFacts PropGen GenSerializer GenSerSpec GenSerAV GenSerFacts GenSerRoot PropGenSer
  GenClient GenClientSpec GenClientFacts GenSession PropGenClient Cost Record PropRecordMem GenRecord
  Derive DeriveSpec Mixed MixedFacts PropMixed MixedValid PropMixedValue PropMixedSession GenMixed GenMixedFacts Deleg DelegFacts DelegValid PropDeleg PropGenSession.
From Coq Require Import ZifyBool ZifyNat ZifyN.
Import ListNotations.
Local Open Scope N_scope.

(** ** Specification *)
(** What a record [p] may hold when the output since the serializer was made is the bytes [lo] to [hi] of the storage: distinct aligned
    words of that output. *)
Definition entries_in {P : Params} (lo hi : N) (p : ptrs) : Prop :=
  NoDup (remembered p) /\ Forall (fun q => (pW | q) /\ lo <= q /\ q + pW <= hi) (remembered p).
(** It takes memory in proportion to [n] bytes of output. *)
Definition record_small {P : Params} (n : N) (p : ptrs) : Prop :=
  N.of_nat (length (remembered p)) * pW <= n /\ record_bytes p <= 14 * n + 20 * pW /\
  (8 * n <= imax -> no_overflow (4 * pW) (length (pt_past p)) /\
     forall g, g = pt_current p \/ In g (pt_past p) -> no_overflow pW (length (pg_pos g))).

Section Pure.
Context {P : Params}.
Lemma remembered_recs p : remembered p = map snd (recs p).
Proof.
  unfold remembered, recs, group_recs. rewrite map_app, map_map. cbn [snd]. rewrite map_id. f_equal.
  induction (pt_past p) as [|g gs IH]; [reflexivity|]. cbn [flat_map]. rewrite map_app, map_map. cbn [snd]. rewrite map_id, IH. reflexivity.
Qed.
Lemma snd_combine {A B} (xs : list A) : forall (ys : list B), length xs = length ys -> map snd (combine xs ys) = ys.
Proof. induction xs as [|x xs IH]; intros [|y ys] H; try discriminate; [reflexivity|]. cbn in *. f_equal. apply IH. lia. Qed.

(** Distinct aligned words. *)
Lemma words_fit (C : cfg_ok) lo hi : forall qs, NoDup qs -> lo <= hi -> Forall (fun q => (pW | q) /\ lo <= q /\ q + pW <= hi) qs ->
  N.of_nat (length qs) * pW <= hi - lo.
Proof.
  intros qs ND Hle HF. pose proof (pW_vals (c_machine C)) as HW.
  assert (L : forall xs, lengths (map (fun q => (q, pW)) xs) = N.of_nat (length xs) * pW).
  { induction xs as [|x xs IH]; [reflexivity|]. cbn [map lengths length]. rewrite IH. lia. }
  rewrite <- L. apply (lengths_le (length (map (fun q => (q, pW)) qs))); [lia|exact Hle| |].
  - apply Forall_map. eapply Forall_impl; [|exact HF]. cbn. intros q (_ & A & B). auto.
  - clear Hle. induction ND as [|q qs Hn ND IH]; [constructor|]. inversion HF as [|? ? Hq HF']; subst. cbn [map]. constructor; [|auto].
    apply Forall_map. apply Forall_forall. intros r Hr. rewrite Forall_forall in HF'. destruct (HF' r Hr) as ([x ->] & _). destruct Hq as ([y ->] & _).
    assert (x <> y) by (intros ->; contradiction). unfold sep. cbn [fst snd].
    destruct (N.lt_ge_cases x y); [right; replace y with (x + 1 + (y - x - 1)) by lia|left; replace x with (y + 1 + (x - y - 1)) by lia];
      rewrite !N.mul_add_distr_r; lia.
Qed.

Lemma groups_le gs : Forall (fun g => pg_pos g <> []) gs -> (length gs <= length (flat_map pg_pos gs))%nat.
Proof.
  induction 1 as [|g gs Hg _ IH]; [cbn; lia|]. cbn [length flat_map]. rewrite app_length. destruct (pg_pos g); [contradiction|cbn; lia].
Qed.
Lemma in_group g gs : In g gs -> (length (pg_pos g) <= length (flat_map pg_pos gs))%nat.
Proof. induction gs as [|h gs IH]; intros H; [destruct H|]. cbn [flat_map]. rewrite app_length. destruct H as [->|H]; [|specialize (IH H)]; lia. Qed.

Lemma small_of (C : cfg_ok) lo hi p : lo <= hi -> entries_in lo hi p -> Forall (fun g => pg_pos g <> []) (pt_past p) -> record_small (hi - lo) p.
Proof.
  intros Hle [ND HF] HG. pose proof (words_fit C lo hi _ ND Hle HF) as Hn. unfold record_small. split; [exact Hn|].
  pose proof (groups_le _ HG) as Hg. pose proof (pW_vals (c_machine C)) as HW. pose proof (imax_big (c_machine C)) as Hi.
  set (n := hi - lo) in *. clearbody n. clear ND HF HG Hle lo hi.
  unfold remembered in Hn. rewrite app_length, Nat2N.inj_add in Hn.
  set (b := flat_map pg_pos (pt_past p)) in *.
  split.
  - unfold record_bytes. pose proof (sum_bytes_le (pt_past p)) as Hs. fold b in Hs. unfold positions_bytes.
    pose proof (vec_cap_le2 (length (pg_pos (pt_current p)))) as H1. pose proof (vec_cap_le2 (length (pt_past p))) as H2.
    apply (N.mul_le_mono_r _ _ pW) in H1. apply (N.mul_le_mono_r _ _ (4 * pW)) in H2.
    set (c := N.of_nat (length (pg_pos (pt_current p)))) in *. set (g := N.of_nat (length (pt_past p))) in *.
    assert (Hgb : g <= N.of_nat (length b)) by (subst g; lia). set (e := N.of_nat (length b)) in *.
    apply (N.mul_le_mono_r _ _ pW) in Hgb. lia.
  - intros Hsm. split.
    + intros j Hj. pose proof (vec_cap_le j) as H. apply (N.mul_le_mono_r _ _ (4 * pW)) in H.
      assert (Hb : 2 * (N.of_nat j - 1) * (4 * pW) <= 8 * (N.of_nat (length b) * pW)).
      { replace (2 * (N.of_nat j - 1) * (4 * pW)) with (8 * ((N.of_nat j - 1) * pW)) by lia. apply N.mul_le_mono_l. apply N.mul_le_mono_r. lia. }
      change (2 ^ 31 - 1) with 2147483647 in Hi.
      destruct (N.max_spec 4 (2 * (N.of_nat j - 1))) as [[_ Hm]|[_ Hm]]; rewrite Hm in H; lia.
    + intros g Hin j Hj.
      assert (Hl : N.of_nat j <= N.of_nat (length b) + N.of_nat (length (pg_pos (pt_current p)))).
      { destruct Hin as [->|Hin]; [lia|]. pose proof (in_group g _ Hin) as X. fold b in X. lia. }
      pose proof (vec_cap_le j) as H. apply (N.mul_le_mono_r _ _ pW) in H.
      assert (Hb : 2 * (N.of_nat j - 1) * pW <= 2 * ((N.of_nat (length b) + N.of_nat (length (pg_pos (pt_current p)))) * pW)).
      { rewrite <- N.mul_assoc. apply N.mul_le_mono_l. apply N.mul_le_mono_r. lia. }
      change (2 ^ 31 - 1) with 2147483647 in Hi.
      destruct (N.max_spec 4 (2 * (N.of_nat j - 1))) as [[_ Hm]|[_ Hm]]; rewrite Hm in H; lia.
Qed.

Lemma recorded lo hi G bases (b : mem) p :
  words_ok b G bases -> recs p = combine bases (map fst G) -> NoDup (map fst G) ->
  (forall q t, In (q, t) G -> (pW | q) /\ lo <= q /\ q + pW <= hi) -> entries_in lo hi p.
Proof.
  intros Hw Hr ND HG. unfold entries_in. rewrite remembered_recs, Hr, snd_combine.
  - split; [exact ND|]. apply Forall_map. apply Forall_forall. intros [q t] Hi. exact (HG q t Hi).
  - rewrite map_length. clear -Hw. induction Hw; cbn; congruence.
Qed.
Lemma none_in lo hi : entries_in lo hi ptrs_new.
Proof. split; constructor. Qed.
End Pure.

(** ** Any hand-written implementations, any storage *)
(** Between any two calls to serialize_value, also after some have panicked: the positions remembered are distinct words of the
    output, and the memory they take is in proportion to the output. *)
Theorem C97_session {P : Params} {St} (R : ra_impl St) inv contents empties :
  cfg_ok -> keeps_contract (r_st R) inv contents empties -> reserve_keeps_pos (r_st R) inv ->
  forall k E m, storage_for k R inv contents -> wf_env E ->
  forall fuel rs s outs z, ready (r_st R) inv s ->
  Forall (root_in E m fuel) rs -> Forall (root_proper empties) rs ->
  g_attempt_all R k E m fuel rs (g_from_storage s) = Ok outs z ->
  entries_in (i_pos (r_st R) s) (i_pos (r_st R) (gz_st z)) (gz_ptrs z) /\
  record_small (i_pos (r_st R) (gz_st z) - i_pos (r_st R) s) (gz_ptrs z) /\
  (k <> Complete -> remembered (gz_ptrs z) = [] /\ record_bytes (gz_ptrs z) = 0).
Proof.
  intros C K KP k E m HS HE fuel rs s outs z Hok Hall Hpl Hr.
  pose proof (g_attempts_done R C inv contents empties K KP E HE m fuel k HS rs (g_from_storage s) [] Hall Hpl
    (g_from_storage_inv R inv contents k s Hok)) as HV.
  assert (T0 : rec_ok k (g_from_storage s)) by (destruct k; try reflexivity; constructor).
  pose proof (ti_attempts R k E m fuel rs _ T0) as HT. rewrite Hr in HV, HT. cbn [app] in HV.
  destruct HV as (G & (_ & Hin & ND & _ & bases & Hw & Hk) & V2 & V5 & _). cbn [g_from_storage gz_st] in V2, V5.
  assert (HP : entries_in (i_pos (r_st R) s) (i_pos (r_st R) (gz_st z)) (gz_ptrs z) /\ Forall (fun g => pg_pos g <> []) (pt_past (gz_ptrs z))).
  { unfold rec_ok in HT. destruct k; try (rewrite HT; split; [apply none_in|constructor]). split; [|exact HT].
    apply (recorded _ _ G bases _ _ Hw Hk ND). intros q t Hi. destruct (Hin q t Hi) as (A & B & _). pose proof (V5 q t Hi). auto. }
  destruct HP as [H1 H2]. split; [exact H1|]. split; [exact (small_of C _ _ _ V2 H1 H2)|].
  intros Hnk. unfold rec_ok in HT. destruct k; try contradiction; rewrite HT; split; reflexivity.
Qed.

(** ** Values of any types of a program *)
Theorem C97_programs {P : Params} {L : Lexer} {St} (R : ra_impl St) inv contents empties :
  cfg_ok -> keeps_contract (r_st R) inv contents empties -> reserve_keeps_pos (r_st R) inv ->
  forall pg k m f xs s outs z, let E := pr_env pg in
  storage_for k R inv contents -> lexer_ok -> wf_env E -> program_ok pg -> delegates_well pg m -> proper_program empties pg m ->
  ready (r_st R) inv s -> Forall (session_input E m f) xs ->
  g_dx_attempt_all R pg k m f (map place_of xs) (g_from_storage s) = Ok outs z ->
  entries_in (i_pos (r_st R) s) (i_pos (r_st R) (gz_st z)) (gz_ptrs z) /\
  record_small (i_pos (r_st R) (gz_st z) - i_pos (r_st R) s) (gz_ptrs z) /\
  (k <> Complete -> remembered (gz_ptrs z) = [] /\ record_bytes (gz_ptrs z) = 0).
Proof.
  intros C K KP pg k m f xs s outs z E HS LO HE PO DW PP Hok Hxs Hr.
  destruct (g_dx_is_attempts R pg k m f xs C LO HE PO DW Hxs) as (rs & R1 & R2 & R4). rewrite R4 in Hr.
  exact (C97_session R inv contents empties C K KP k E m HS HE 0 rs s outs z Hok R2 (dx_proper empties pg m f xs rs PP R1) Hr).
Qed.

(** ** AlignedVec, with any storage calls that are allowed of it *)
Theorem C97_aligned_vec {P : Params} : forall k E m fuel rs w outs z,
  cfg_ok -> alloc_ok -> wf_env E -> storage_ok w -> Forall (root_in E m fuel) rs ->
  attempt_all k E m fuel rs (from_storage w) = Ok outs z ->
  entries_in (s_pos (sw_s w)) (s_pos (sw_s (z_sw z))) (z_ptrs z) /\
  record_small (s_pos (sw_s (z_sw z)) - s_pos (sw_s w)) (z_ptrs z) /\
  (k <> Complete -> remembered (z_ptrs z) = [] /\ record_bytes (z_ptrs z) = 0).
Proof.
  intros k E m fuel rs w outs z C HA HE Hok Hall Hr.
  pose proof (attempts_done C HA E HE k m fuel rs (from_storage w) [] Hall (from_storage_inv k w Hok)) as HV.
  rewrite Hr in HV. cbn [app] in HV. destruct HV as (G & (_ & Hin & ND & _ & bases & Hw & Hk) & V2 & V5 & _).
  assert (T0 : rec_ok k (g_from_storage (St := sw) w)) by (destruct k; try reflexivity; constructor).
  pose proof (ti_attempts aligned_vec_ra k E m fuel rs _ T0) as HT.
  pose proof (sim_attempt_all k E m fuel rs (g_from_storage w)) as HS. change (to_zs (g_from_storage w)) with (from_storage w) in HS. rewrite Hr in HS.
  destruct (g_attempt_all aligned_vec_ra k E m fuel rs (g_from_storage w)) as [o gz1|e gz1| | |]; try discriminate.
  cbn [on_state] in HS. injection HS as E1 E2. subst o z. destruct gz1 as [w1 pm pt]. cbn [to_zs from_storage z_sw z_ptrs gz_st gz_ptrs gz_map] in *.
  assert (HP : entries_in (s_pos (sw_s w)) (s_pos (sw_s w1)) pt /\ Forall (fun g => pg_pos g <> []) (pt_past pt)).
  { unfold rec_ok in HT. cbn [gz_ptrs] in HT. destruct k; try (rewrite HT; split; [apply none_in|constructor]). split; [|exact HT].
    apply (recorded _ _ G bases _ _ Hw Hk ND). intros q t Hi. destruct (Hin q t Hi) as (A & B & _). pose proof (V5 q t Hi). auto. }
  destruct HP as [H1 H2]. split; [exact H1|]. split; [exact (small_of C _ _ _ V2 H1 H2)|].
  intros Hnk. unfold rec_ok in HT. cbn [gz_ptrs] in HT. destruct k; try contradiction; rewrite HT; split; reflexivity.
Qed.

(** ** The session of C95: a block that moves while values come, panic and do not fit. *)
From Verif Require Import PropStorage PropSerialize Demo WitnessSerialize WitnessDerive.
#[local] Existing Instance ascii_lexer.
Local Open Scope N_scope.
Theorem C97_witness :
  Forall (@root_in demo no_env demo_mem 10) mixed_fates /\ Forall (@root_proper demo true) mixed_fates /\
  match @g_attempt_all demo _ small_storage Complete no_env demo_mem 10 mixed_fates (g_from_storage (mkFixed 8 no_mem)) with
  | Ok outs z => map snd outs = [Some 8; None; None; Some 224] /\ remembered (gz_ptrs z) = [16; 32; 48; 88; 136] /\
      (length (pt_past (gz_ptrs z)), record_bytes (P := demo) (gz_ptrs z)) = (1%nat, 192)
  | _ => False
  end.
Proof. destruct C95_witness as (_ & _ & _ & _ & W1 & W2 & _). split; [exact W1|]. split; [exact W2|]. vm_compute. repeat split; reflexivity. Qed.
Theorem C97_program_witness :
  match @g_dx_attempt_all demo _ _ small_storage deleg_prog Complete deleg_mem 10
          (map place_of (repeat (TBox (TNamed 2), 4096, deleg_val) 5)) (g_from_storage (mkFixed 8 no_mem)) with
  | Ok outs z => remembered (gz_ptrs z) = [8; 24; 32; 64; 80; 88; 120; 136; 144; 176; 192; 200] /\
      (length (pt_past (gz_ptrs z)), record_bytes (P := demo) (gz_ptrs z)) = (1%nat, 256)
  | _ => False
  end.
Proof. vm_compute. split; reflexivity. Qed.
