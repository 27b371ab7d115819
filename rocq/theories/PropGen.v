(** * PropGen: property C65 (the default methods of Storage, for every implementor).

    The last part defines three implementors other than AlignedVec, to show that the
    contract of GenSpec.v can be met in other ways, and what goes wrong outside it. *)
From Verif Require Import Base Types Storage Spec ArithFacts StorageFacts StorageHist PropStorage
  GenStorage GenSpec GenFacts.
From Coq Require Import ZifyBool ZifyNat ZifyN.
Local Open Scope N_scope.

(** ** AlignedVec is such an implementor *)
Section AV.
Context {P : Params}.
Hypothesis C : cfg_ok.
Hypothesis HA : alloc_ok.

Ltac cfg :=
  pose proof (c_SA_pos C); pose proof (c_MVA_pos C); pose proof (c_VA_pos C);
  pose proof (c_VA_MVA C); pose proof (c_MVA_SA C); pose proof (c_MAXC C);
  pose proof (c_MVA_le_MAXC C); pose proof (c_sum C); pose proof (c_umod C);
  pose proof (c_SA_lt_imax C).

(** storage_ok without "the position is a multiple of VALUE_ALIGNMENT". *)
Definition av_inv (w : sw) : Prop :=
  let st := sw_s w in
  (MVA | s_cap st) /\ s_cap st <= MAXC /\ s_pos st <= s_cap st /\
  (s_cap st = 0 -> s_ptr st = 1) /\
  (0 < s_cap st -> s_ptr st <> 0 /\ (SA | s_ptr st) /\ s_ptr st + s_cap st < umod).
Definition av_contents (w : sw) : mem := s_buf (sw_s w).

Lemma av_ready_iff w : ready aligned_vec av_inv w <-> storage_ok w.
Proof. unfold ready, av_inv, storage_ok. cbn. tauto. Qed.

Lemma av_keeps_contract : keeps_contract aligned_vec av_inv av_contents false.
Proof.
  cfg. split.
  - intros w Hi. cbn. unfold av_inv in Hi. tauto.
  - split; [|reflexivity]. unfold av_inv; cbn. repeat split; try lia. apply N.divide_0_r.
  - intros c Q1 Q2 Q3. cbn [aligned_vec i_with_capacity_unchecked i_pos i_capacity].
    pose proof (with_capacity_spec C HA c ltac:(lia)) as HH.
    unfold with_capacity in HH.
    rewrite (bind_ok _ _ _ _ _ (assert_alignments_valid_ok C sw_new)) in HH.
    destruct (N.eqb_spec c 0) as [|_]; [lia|].
    rewrite (bind_ok _ _ sw_new tt sw_new) in HH by (apply assert_or_true; lia).
    rewrite (bind_ok _ _ sw_new (round_up c MVA) sw_new) in HH
      by (apply align_up_to_ok; [apply (c_MVA C)|lia]).
    rewrite round_up_id in HH by (try lia; exact Q3).
    destruct (with_capacity_unchecked c sw_new) as [[] w|p w| | |]; auto.
    destruct HH as (_ & Hok & _ & Hp & Hc & _). split; [|split; [exact Hp|]].
    + apply av_ready_iff. exact Hok.
    + rewrite Hc. lia.
  - intros w n Hi Hn Hv. cbn in Hn |- *. eexists. split; [apply (set_pos_eq C); assumption|].
    unfold av_inv in *; cbn in *. ands; try tauto. intros i _. reflexivity.
  - intros w l n data Hi Hg Hs Hn Hal Hfit. cbn in Hal, Hfit |- *.
    assert (0 < n) by (destruct Hn; [assumption|discriminate]).
    assert (0 < l_size l * n) by (apply N.mul_pos_pos; lia).
    destruct Hi as (I1 & I2 & I3 & I4 & I5). cbn in *.
    eexists. split.
    { apply (push_slice_unchecked_eq C); auto; [lia|]. left. split; [lia|]. apply I5. lia. }
    unfold av_inv; cbn. ands; auto.
    + intros i Hi. unfold av_contents; cbn. unfold blit.
      rewrite (proj2 (N.leb_gt _ i)) by lia. reflexivity.
    + intros i Hi. unfold av_contents; cbn. unfold blit.
      rewrite (proj2 (N.leb_le _ (s_pos (sw_s w) + i))) by lia.
      rewrite (proj2 (N.ltb_lt (s_pos (sw_s w) + i) _)) by lia. cbn. f_equal; lia.
  - intros w n Hi Hv Hn. cbn [aligned_vec i_reserve i_pos i_capacity].
    assert (Hok : storage_ok w) by (apply av_ready_iff; split; assumption).
    rewrite (reserve_eq C w n Hok Hn).
    pose proof (grow_to_spec C HA w (s_pos (sw_s w) + n) Hok) as HH.
    destruct (grow_to (s_pos (sw_s w) + n) w) as [[] w'|p w'| | |]; auto.
    + destruct HH as (Q1 & Q2 & Q3 & Q4 & Q5 & _).
      split; [apply av_ready_iff; exact Q1|]. ands; try lia.
      * rewrite Q2, N.sub_diag. apply N.divide_0_r.
      * intros i Hlt. apply Q5. pose proof (ok_pos_le w Hok). cbn in Hlt. lia.
    + destruct HH as (_ & -> & _). ands; auto. apply same_below_refl.
  - intros w Hi Hv. cbn [aligned_vec i_shrink_to_fit i_pos i_capacity].
    assert (Hok : storage_ok w) by (apply av_ready_iff; split; assumption).
    pose proof (shrink_spec C HA w Hok) as HH.
    destruct (shrink_to_fit w) as [[] w'|p w'| | |]; auto; try contradiction.
    destruct HH as (Q1 & Q2 & Q3 & Q4 & Q5 & Q6). ands; auto.
    apply av_ready_iff. exact Q1.
Qed.

Lemma av_reserve_keeps_pos : reserve_keeps_pos aligned_vec av_inv.
Proof.
  intros w n Hi Hv Hn. cbn [aligned_vec i_reserve i_pos i_capacity].
  assert (Hok : storage_ok w) by (apply av_ready_iff; split; assumption).
  rewrite (reserve_eq C w n Hok Hn).
  pose proof (grow_to_spec C HA w (s_pos (sw_s w) + n) Hok) as HH.
  destruct (grow_to (s_pos (sw_s w) + n) w) as [[] w'|p w'| | |]; auto. apply HH.
Qed.

End AV.

(** Its default methods are those of Storage.v, which the other properties are about. *)
Lemma av_run_op {P : Params} o w : g_run_op aligned_vec o w = run_op o w.
Proof. destruct o; reflexivity. Qed.

Lemma av_run_ops {P : Params} os : forall w, g_run_ops aligned_vec os w = run_ops os w.
Proof.
  induction os as [|o os IH]; intros w; [reflexivity|].
  cbn [g_run_ops run_ops]. rewrite av_run_op. destruct (run_op o w); auto.
Qed.

Lemma av_run_seq {P : Params} os : forall w, g_run_seq aligned_vec os w = run_seq os w.
Proof.
  induction os as [|o os IH]; intros w; [reflexivity|].
  cbn [g_run_seq run_seq]. unfold bind. rewrite av_run_op. destruct (run_op o w) as [r w'| | | |]; try reflexivity.
Qed.

(** C65: AlignedVec keeps to the contract (non-empty slices), its reserve leaves the
    position alone, and every history of calls on it is the one of Storage.v. *)
Theorem aligned_vec_keeps_contract {P : Params} : cfg_ok -> alloc_ok ->
  keeps_contract aligned_vec av_inv av_contents false /\
  reserve_keeps_pos aligned_vec av_inv /\
  (forall w, ready aligned_vec av_inv w <-> storage_ok w) /\
  (forall os w, g_run_ops aligned_vec os w = run_ops os w) /\
  (forall os w, g_run_seq aligned_vec os w = run_seq os w).
Proof.
  intros C HA. split; [apply (av_keeps_contract C HA)|].
  split; [apply (av_reserve_keeps_pos C HA)|].
  split; [apply av_ready_iff|]. split; intros; [apply av_run_ops|apply av_run_seq].
Qed.

(** ** C65 *)

(** push_slice (and push, push_bytes): aligned, in place, earlier contents kept, ready for
    the next call; a panic of reserve leaves everything stored so far; no UB. *)
Theorem any_storage_push_slice {P : Params} {St} (I : storage_impl St) inv contents empties :
  cfg_ok -> keeps_contract I inv contents empties ->
  forall s l n data,
  ready I inv s -> good_layout l -> l_size l * n <= imax -> (0 < n \/ empties = true) ->
  match g_push_slice I l n data s with
  | Ok p s' => g_pushed I inv contents s l n data p s' /\
      (reserve_keeps_pos I inv -> 0 < l_size l ->
         least_multiple (i_pos I s) (N.max (l_align l) VA) p)
  | Panic _ s' => ready I inv s' /\ i_pos I s <= i_pos I s' /\
      same_below (i_pos I s) (contents s') (contents s)
  | Abort => True
  | UB | OutOfFuel => False
  end.
Proof.
  intros C K s l n data Hr Hg Hsz Hn.
  pose proof (c_VA_pos C). pose proof (push_start_ge C (i_pos I s) l (proj1 Hg)).
  unfold g_pushed. destruct (N.eqb_spec (l_size l) 0) as [E0|E0].
  - unfold g_push_slice. rewrite E0. cbn. split; [auto|lia].
  - pose proof (g_push_slice_ok C I inv contents empties K s l n data Hr Hg ltac:(lia) ltac:(pose proof (c_umod C); lia) Hn) as HH.
    destruct (g_push_slice I l n data s) as [p s'|p s'| | |]; auto.
    + destruct HH as (sh & Hsh & Hp & Hp' & Hk & Hb & Hd & Hr').
      split; [ands; auto|].
      * rewrite Hp. apply N.divide_add_r; [apply (push_start_align C), Hg|].
        eapply divide_trans; [|exact Hsh]. apply pow2_divide; [apply Hg|apply (c_MVA C)|apply Hg].
      * lia.
      * rewrite Hp'. apply round_up_spec. lia.
      * intros Hk' _. rewrite Hp, (Hk Hk'), N.add_0_r. apply round_up_spec. lia.
    + destruct HH as (Q1 & Q2 & Q3). ands; auto. lia.
Qed.

(** Any history of calls in contract, panics caught: no UB, and the storage stays in order. *)
Theorem any_storage_history {P : Params} {St} (I : storage_impl St) inv contents empties :
  cfg_ok -> keeps_contract I inv contents empties ->
  forall os s, ready I inv s -> Forall (op_in_contract empties) os ->
  match g_run_ops I os s with
  | Ok _ s' => ready I inv s'
  | Abort => True
  | Panic _ _ | UB | OutOfFuel => False
  end.
Proof. intros C K os s. apply (g_run_ops_spec C I inv contents empties K). Qed.

(** Everything pushed is still there at the end of a history without clear(): each value
    at the position returned for it, aligned, no two overlapping, on top of what was
    stored before. *)
Theorem any_storage_keeps_values {P : Params} {St} (I : storage_impl St) inv contents empties :
  cfg_ok -> keeps_contract I inv contents empties ->
  forall os s rs s',
  ready I inv s -> Forall (op_in_contract empties) os -> Forall no_overflow os ->
  Forall not_clear os ->
  g_run_seq I os s = Ok rs s' ->
  ready I inv s' /\ same_below (i_pos I s) (contents s') (contents s) /\
  stored I contents s' (i_pos I s) os rs.
Proof.
  intros C K os s rs s' Hr Hf Hn Hc E.
  pose proof (g_run_seq_spec C I inv contents empties K os s Hr Hf Hn Hc) as HH. rewrite E in HH.
  tauto.
Qed.

(** The positions returned are those of the layout rule of C07, for every implementor whose
    reserve leaves the position alone. *)
Theorem any_storage_positions {P : Params} {St} (I : storage_impl St) inv contents empties :
  cfg_ok -> keeps_contract I inv contents empties -> reserve_keeps_pos I inv ->
  forall os s rs s',
  ready I inv s -> Forall (op_in_contract empties) os -> Forall no_overflow os ->
  g_run_seq I os s = Ok rs s' -> rs = positions (i_pos I s) os.
Proof. intros C K Hk os s rs s' Hr Hf Hn E. eapply (g_run_seq_positions C I inv contents empties K); eauto. Qed.

(** So two implementors with the same const parameters place a sequence of calls alike. *)
Theorem any_two_storages_agree {P : Params} {St1 St2}
    (I1 : storage_impl St1) inv1 contents1 e1 (I2 : storage_impl St2) inv2 contents2 e2 :
  cfg_ok ->
  keeps_contract I1 inv1 contents1 e1 -> reserve_keeps_pos I1 inv1 ->
  keeps_contract I2 inv2 contents2 e2 -> reserve_keeps_pos I2 inv2 ->
  forall os s1 s2 rs1 rs2 s1' s2',
  ready I1 inv1 s1 -> ready I2 inv2 s2 -> i_pos I1 s1 = i_pos I2 s2 ->
  Forall (op_in_contract e1) os -> Forall (op_in_contract e2) os -> Forall no_overflow os ->
  g_run_seq I1 os s1 = Ok rs1 s1' -> g_run_seq I2 os s2 = Ok rs2 s2' ->
  rs1 = rs2.
Proof.
  intros C K1 R1 K2 R2 os s1 s2 rs1 rs2 s1' s2' Hr1 Hr2 Hp F1 F2 Hn E1 E2.
  rewrite (any_storage_positions I1 inv1 contents1 e1 C K1 R1 os s1 rs1 s1' Hr1 F1 Hn E1).
  rewrite (any_storage_positions I2 inv2 contents2 e2 C K2 R2 os s2 rs2 s2' Hr2 F2 Hn E2).
  rewrite Hp. reflexivity.
Qed.

(** with_capacity: enough room, position 0; more than MAX_CAPACITY panics. *)
Theorem any_storage_with_capacity {P : Params} {St} (I : storage_impl St) inv contents empties :
  cfg_ok -> keeps_contract I inv contents empties ->
  forall c,
  match g_with_capacity I c tt with
  | Ok s _ => ready I inv s /\ i_pos I s = 0 /\ c <= i_capacity I s /\ c <= MAXC
  | Panic p _ => MAXC < c -> p = PWithCapacity
  | Abort => True
  | UB | OutOfFuel => False
  end.
Proof. intros C K c. apply (g_with_capacity_spec C I inv contents empties K). Qed.

(** ** Other implementors *)

(** A buffer of [size] bytes that never grows.  Outside the documented contract of an
    unsafe method its behaviour is undefined (set_pos: storage/mod.rs:238-246;
    push_slice_unchecked: :301-331). [skip]: by how much reserve moves the position. *)
Record fixed := mkFixed { fx_pos : N; fx_buf : mem }.

Section Fixed.
Context {P : Params}.
Variables size skip : N.

Definition fixed_buf : storage_impl fixed := {|
  i_new := mkFixed 0 no_mem;
  i_with_capacity_unchecked := fun c =>
    if c <=? size then ret (mkFixed 0 no_mem) else panics PAssert;
  i_capacity := fun _ => size;
  i_pos := fx_pos;
  i_set_pos := fun n s =>
    if (n <=? size) && (n mod VA =? 0) then Ok tt (mkFixed n (fx_buf s)) else UB;
  i_push_slice_unchecked := fun l n data sz s =>
    if (sz =? l_size l * n) && (fx_pos s mod l_align l =? 0) && (fx_pos s + sz <=? size)
    then Ok tt (mkFixed (fx_pos s + sz) (blit (fx_buf s) (fx_pos s) sz data)) else UB;
  i_reserve := fun n s =>
    if fx_pos s + skip + n <=? size then Ok tt (mkFixed (fx_pos s + skip) (fx_buf s))
    else Panic PCapacity s;
  i_shrink_to_fit := ret tt
|}.
Definition fixed_inv (s : fixed) : Prop := fx_pos s <= size.

Lemma fixed_keeps_contract :
  cfg_ok -> (MVA | size) -> size <= MAXC -> (MVA | skip) ->
  keeps_contract fixed_buf fixed_inv fx_buf true.
Proof.
  intros C Hd Hm Hsk. pose proof (c_VA_pos C). split.
  - intros s Hi. cbn. auto.
  - split; [|reflexivity]. unfold fixed_inv; cbn. lia.
  - intros c Q1 Q2 Q3. cbn. destruct (N.leb_spec c size); cbn; [|exact Logic.I].
    unfold fixed_inv; cbn. ands; auto; lia.
  - intros s n Hi Hn Hv. cbn in *. rewrite (proj2 (N.leb_le n size) Hn).
    rewrite (proj2 (mod_eqb_divide VA n ltac:(lia)) Hv). cbn.
    eexists. ands; try reflexivity; auto. intros i _. reflexivity.
  - intros s l n data Hi Hg Hs Hn Hal Hfit. cbn in *.
    rewrite N.eqb_refl. rewrite (proj2 (mod_eqb_divide (l_align l) (fx_pos s) ltac:(pose proof (pow2_pos _ (proj1 Hg)); lia)) Hal).
    rewrite (proj2 (N.leb_le _ size) Hfit). cbn.
    eexists. ands; try reflexivity; auto.
    + intros i Hi'. cbn. unfold blit. rewrite (proj2 (N.leb_gt _ i)) by lia. reflexivity.
    + intros i Hi'. cbn. unfold blit.
      rewrite (proj2 (N.leb_le _ (fx_pos s + i))) by lia.
      rewrite (proj2 (N.ltb_lt (fx_pos s + i) _)) by lia. cbn. f_equal; lia.
  - intros s n Hi Hv Hn. cbn in *. destruct (N.leb_spec (fx_pos s + skip + n) size); cbn.
    + unfold fixed_inv; cbn. ands; try lia.
      * replace (fx_pos s + skip - fx_pos s) with skip by lia. exact Hsk.
      * apply same_below_refl.
    + ands; auto. apply same_below_refl.
  - intros s Hi Hv. cbn. ands; auto. apply same_below_refl.
Qed.

Lemma fixed_reserve_keeps_pos : skip = 0 -> reserve_keeps_pos fixed_buf fixed_inv.
Proof.
  intros E s n Hi Hv Hn. cbn. destruct (fx_pos s + skip + n <=? size); cbn; auto. lia.
Qed.
End Fixed.

(** C65, hypotheses met: a buffer that never grows keeps to the contract, and so does one
    whose reserve moves the position on by MAX_VALUE_ALIGNMENT. *)
Theorem fixed_storages_keep_contract {P : Params} : cfg_ok ->
  (keeps_contract (fixed_buf MAXC 0) (fixed_inv MAXC) fx_buf true /\
   reserve_keeps_pos (fixed_buf MAXC 0) (fixed_inv MAXC)) /\
  keeps_contract (fixed_buf MAXC MVA) (fixed_inv MAXC) fx_buf true.
Proof.
  intros C. ands.
  - apply fixed_keeps_contract; [exact C|apply (c_MVA_MAXC C)|lia|apply N.divide_0_r].
  - apply fixed_reserve_keeps_pos; reflexivity.
  - apply fixed_keeps_contract; [exact C|apply (c_MVA_MAXC C)|lia|apply N.divide_refl].
Qed.

(** C65, the reserve clause cannot be dropped: reserve may not move the position by less
    than the alignment of what is about to be pushed ("reserve is allowed to alter pos",
    storage/mod.rs:277): with a reserve that moves it by VALUE_ALIGNMENT, pushing a type
    aligned to more than VALUE_ALIGNMENT reaches push_slice_unchecked with a misaligned
    position. *)
Theorem moving_reserve_misaligns {P : Params} : cfg_ok ->
  forall l data, good_layout l -> VA < l_align l -> 0 < l_size l -> VA + l_size l <= MAXC ->
  g_push (fixed_buf MAXC VA) l data (i_new (fixed_buf MAXC VA)) = UB.
Proof.
  intros C l data Hg Hva Hs Hfit.
  pose proof (c_VA_pos C). pose proof (c_VA_MVA C). pose proof (c_MVA_le_MAXC C). pose proof (c_sum C).
  pose proof (c_umod C). pose proof (c_SA_pos C).
  destruct Hg as (Ha & Hg2 & Hg3 & Hg4).
  unfold g_push, g_push_slice. destruct (N.eqb_spec (l_size l) 0) as [|_]; [lia|].
  unfold g_align_for. rewrite (proj2 (N.ltb_lt _ _) Hva).
  erewrite bind_ok.
  2:{ unfold g_align.
      erewrite bind_ok by (apply dassert_true; unfold ret; do 2 f_equal; lia).
      erewrite bind_ok by (apply dassert_true; unfold ret; do 2 f_equal; lia).
      erewrite bind_ok by (apply dassert_true; unfold ret; rewrite (proj2 (is_pow2_spec _) Ha); reflexivity).
      erewrite bind_ok by reflexivity. cbn [i_pos i_new fixed_buf fx_pos].
      erewrite bind_ok by (apply align_up_to_ok; [exact Ha|lia]).
      rewrite round_up_id by (try lia; apply N.divide_0_r).
      cbn [i_set_pos fixed_buf fx_buf]. rewrite (proj2 (N.leb_le 0 MAXC)) by lia.
      rewrite N.mod_0_l by lia. cbn [andb N.eqb]. reflexivity. }
  erewrite bind_ok by (apply mul_u_ok; lia).
  erewrite bind_ok.
  2:{ cbn [i_reserve fixed_buf fx_pos fx_buf].
      rewrite (proj2 (N.leb_le (0 + VA + l_size l * 1) MAXC)) by lia. reflexivity. }
  erewrite bind_ok by reflexivity. cbn [i_pos fixed_buf fx_pos].
  unfold bind. cbn [i_push_slice_unchecked fixed_buf fx_pos].
  rewrite N.mod_small by lia. rewrite N.add_0_l.
  rewrite (proj2 (N.eqb_neq VA 0)) by lia. rewrite andb_false_r. reflexivity.
Qed.

(** C65, the hypothesis on push_empty cannot be dropped: push_empty_slice calls set_pos with
    a position that is not a multiple of VALUE_ALIGNMENT whenever the space it leaves is
    not one, which set_pos forbids; an implementor that keeps to the contract may then do
    anything. *)
Theorem push_empty_breaks_set_pos_contract {P : Params} : cfg_ok ->
  forall l n s, ready (fixed_buf MAXC 0) (fixed_inv MAXC) s ->
  good_layout l -> l_size l * n < umod -> ~ (VA | l_size l * n) ->
  push_start (fx_pos s) l + l_size l * n <= MAXC ->
  g_push_empty_slice (fixed_buf MAXC 0) l n s = UB.
Proof.
  intros C l n s Hr Hg Hu Hnd Hfit.
  pose proof (c_VA_pos C). pose proof (c_VA_MVA C). pose proof (c_MVA_le_MAXC C). pose proof (c_sum C).
  pose proof (c_umod C). pose proof (c_SA_pos C).
  destruct (fixed_storages_keep_contract C) as ((K & _) & _).
  destruct (g_align_for_ok C _ _ _ _ K s l Hr (proj1 Hg) ltac:(apply Hg)) as (s1 & E1 & Hr1 & Hp1 & _ & _).
  cbn [i_pos fixed_buf] in Hp1.
  unfold g_push_empty_slice. erewrite bind_ok by exact E1.
  erewrite bind_ok by (apply mul_u_ok; exact Hu).
  erewrite bind_ok.
  2:{ cbn [i_reserve fixed_buf fx_pos fx_buf].
      rewrite (proj2 (N.leb_le (fx_pos s1 + 0 + l_size l * n) MAXC)) by lia. reflexivity. }
  erewrite bind_ok by reflexivity. cbn [i_pos fixed_buf fx_pos].
  erewrite bind_ok by (apply add_u_ok; lia).
  unfold bind. cbn [i_set_pos fixed_buf fx_buf].
  replace (fx_pos s1 + 0 + l_size l * n) with (fx_pos s1 + l_size l * n) by lia.
  destruct (N.eqb_spec ((fx_pos s1 + l_size l * n) mod VA) 0) as [E|E].
  2:{ rewrite andb_false_r. reflexivity. }
  exfalso. apply Hnd. apply N.mod_divide in E; [|lia].
  eapply N.divide_add_cancel_r; [|exact E]. apply Hr1.
Qed.

(** ** A history that meets the hypotheses *)
Definition gen_ops : list sop :=
  [OPush u8_layout (bytes_src [1]); OPushSlice u32_layout 2 (bytes_src [2;0;0;0;3;0;0;0]);
   OReserve 100; OPushEmpty u64_layout; OPushBytes 3 (bytes_src [4;5;6]); OShrink].

Theorem gen_ops_witness :
  Forall (@op_in_contract demo true) gen_ops /\ Forall (@no_overflow demo) gen_ops /\
  Forall not_clear gen_ops /\
  (match @g_run_seq demo _ (@fixed_buf demo 4096 0) gen_ops (mkFixed 0 no_mem) with
   | Ok rs s => rs = [Some 0; Some 8; None; Some 16; Some 24; None] /\ fx_pos s = 32 /\
       fx_buf s 0 = Some 1 /\ fx_buf s 12 = Some 3 /\ fx_buf s 26 = Some 6
   | _ => False end) /\
  (match @g_run_seq demo _ (@fixed_buf demo 4096 16) gen_ops (mkFixed 0 no_mem) with
   | Ok rs s => rs = [Some 16; Some 40; None; Some 80; Some 104; None] /\ fx_pos s = 112
   | _ => False end).
Proof.
  split; [|split; [|split; [|split]]].
  - assert (Hg : forall s a, pow2 a -> (a | s) -> s <= 1000 -> a <= 16 -> @good_layout demo (mkLayout s a)).
    { intros s a Q1 Q2 Q3 Q4. unfold good_layout. cbn [l_size l_align]. ands; auto.
      change (@imax demo) with 9223372036854775807. lia. }
    assert (G8 : @good_layout demo u8_layout) by (apply Hg; [exact pow2_1|apply divc; [vm_compute; reflexivity|discriminate]|lia|lia]).
    assert (G32 : @good_layout demo u32_layout) by (apply Hg; [exact pow2_4|apply divc; [vm_compute; reflexivity|discriminate]|lia|lia]).
    assert (G64 : @good_layout demo u64_layout) by (apply Hg; [exact pow2_8|apply divc; [vm_compute; reflexivity|discriminate]|lia|lia]).
    assert (Hc : forall o, @op_valid demo o -> (forall l n, op_gap o = Some (l, n) -> (8 | l_size l * n)) ->
                 @op_in_contract demo true o).
    { intros o Q1 Q2. split; [exact Q1|]. split; [intros; right; reflexivity|exact Q2]. }
    unfold gen_ops. repeat (apply Forall_cons; [apply Hc|]); [..|apply Forall_nil]; cbn [op_valid op_gap];
      auto; try discriminate; try (vm_compute; congruence).
    + split; [exact G32|vm_compute; congruence].
    + intros l n E. inversion E; subst. apply divc; [vm_compute; reflexivity|discriminate].
  - repeat constructor; vm_compute; reflexivity.
  - repeat constructor.
  - vm_compute. repeat split; reflexivity.
  - vm_compute. repeat split; reflexivity.
Qed.
