(** * PropReact: implementations that go on according to the positions the serializer gives them (C101). *)
From Verif Require Import Base Types Storage Serializer Serialize Spec ArithFacts StorageFacts StorageHist
  MemFacts TypeFacts SerFacts SerMain SerValue SerRoot SerProps PropStorage Demo WitnessSerialize
  Client ClientSpec ClientFacts PropClient
  GenStorage GenSpec GenFacts PropGen GenSerializer GenSerSpec GenSerAV GenSerFacts GenSerRoot PropGenSer
  GenClient GenClientSpec GenClientFacts PropGenClient PropGenSession Relocate Bytes PropBytes React ReactFacts ReactSame.
From Coq Require Import ZifyBool ZifyNat ZifyN.
Local Open Scope N_scope.

(** If the calls such implementations make given the right positions ([roots_from], React.v) keep to the rules, then the
    serializer gives the right positions, they make those calls, and the output is that of those calls: every value has its
    image, one after the other, on top of what was stored before.  The only panic is one of the storage's reserve; no undefined behaviour. *)
Theorem C101_any_storage {P : Params} {St} (R : ra_impl St) inv contents empties :
  cfg_ok -> keeps_contract (r_st R) inv contents empties -> reserve_keeps_pos (r_st R) inv ->
  forall k E m, storage_for k R inv contents -> wf_env E ->
  forall fuel xs s, ready (r_st R) inv s ->
  let rs := roots_from E (i_pos (r_st R) s) xs in
  Forall (root_in E m fuel) rs -> Forall root_plain rs ->
  match r_all R k E m fuel xs (g_from_storage s) with
  | Ok ps z =>
      let s' := gz_st z in
      let B := g_read_base R k s' in
      ps = roots_pos E (i_pos (r_st R) s) rs /\
      i_pos (r_st R) s' = roots_end E (i_pos (r_st R) s) rs /\
      ready (r_st R) inv s' /\
      same_below (i_pos (r_st R) s) (contents s') (contents s) /\
      regions k E m (g_out_mem (r_st R) contents B s') B (i_pos (r_st R) s) rs
  | Panic e z =>
      refused_within (r_st R) inv (i_pos (r_st R) s) (roots_end E (i_pos (r_st R) s) rs) e /\
      ready (r_st R) inv (gz_st z) /\
      i_pos (r_st R) s <= i_pos (r_st R) (gz_st z) /\
      same_below (i_pos (r_st R) s) (contents (gz_st z)) (contents s)
  | Abort => True
  | UB | OutOfFuel => False
  end.
Proof.
  intros C K KP k E m HS HE fuel xs s Hr rs Hall Hpl.
  destruct (plain_roots empties rs Hpl) as [H1 H2].
  exact (r_all_spec (UP := False) R C inv contents empties K KP E HE m fuel k HS xs s (fun x => x) Hr Hall H1 H2).
Qed.

(** The same with storage calls and panics, each value under catch_unwind, then finalize.  A value's calls are those from the
    position the session reports for it ([roots_at]), wherever an earlier panic left it. *)
Theorem C101_session {P : Params} {St} (R : ra_impl St) inv contents empties :
  cfg_ok -> keeps_contract (r_st R) inv contents empties -> reserve_keeps_pos (r_st R) inv ->
  forall k E m, storage_for k R inv contents -> wf_env E ->
  forall fuel xs s, ready (r_st R) inv s -> Forall (rules_for E m fuel empties) xs ->
  match r_session R k E m fuel xs (g_from_storage s) with
  | Ok outs z =>
      let s' := gz_st z in
      let B := g_read_base R k s' in
      ready (r_st R) inv s' /\ i_pos (r_st R) s <= i_pos (r_st R) s' /\
      same_below (i_pos (r_st R) s) (contents s') (contents s) /\
      length outs = length xs /\
      g_attempts k E m (r_st R) inv (g_out_mem (r_st R) contents B s') B (i_pos (r_st R) s) (roots_at E xs outs) outs (i_pos (r_st R) s')
  | Abort => True
  | Panic _ _ | UB | OutOfFuel => False
  end.
Proof.
  intros C K KP k E m HS HE fuel xs s Hr Hall.
  pose proof (r_session_spec R C inv contents empties K KP E HE m fuel k HS xs s Hr Hall) as X.
  destruct (r_session R k E m fuel xs (g_from_storage s)); auto.
  cbv zeta in X. destruct X as (X1 & X2 & X3 & X4 & X5). cbv zeta. ands; assumption.
Qed.

(** Exactly as if the implementations had known beforehand: whatever happens - also a panic of the storage, or one of an implementation -
    outcome and final state are those of the calls of [roots_from], made without looking at any position (C89); so all that is
    proved of those holds. *)
Theorem C101_same {P : Params} {St} (R : ra_impl St) inv contents empties :
  cfg_ok -> keeps_contract (r_st R) inv contents empties -> reserve_keeps_pos (r_st R) inv ->
  forall k E m, storage_for k R inv contents -> wf_env E ->
  forall fuel xs s, ready (r_st R) inv s ->
  let rs := roots_from E (i_pos (r_st R) s) xs in
  Forall (root_in E m fuel) rs -> Forall (root_proper empties) rs ->
  r_all R k E m fuel xs (g_from_storage s) = g_client_all R k E m fuel rs (g_from_storage s).
Proof.
  intros C K KP k E m HS HE fuel xs s Hr rs Hall Hpl.
  exact (all_same R C inv contents empties K KP E HE m fuel k HS xs s Hr Hall Hpl).
Qed.
(** And a session that returns is the session of C95 with the calls of [roots_at]. *)
Theorem C101_same_session {P : Params} {St} (R : ra_impl St) inv contents empties :
  cfg_ok -> keeps_contract (r_st R) inv contents empties -> reserve_keeps_pos (r_st R) inv ->
  forall k E m, storage_for k R inv contents -> wf_env E ->
  forall fuel xs s outs z, ready (r_st R) inv s -> Forall (rules_for E m fuel empties) xs ->
  r_session R k E m fuel xs (g_from_storage s) = Ok outs z ->
  g_session R k E m fuel (roots_at E xs outs) (g_from_storage s) = Ok outs z.
Proof.
  intros C K KP k E m HS HE fuel xs s outs z Hr Hall H.
  exact (session_same R C inv contents empties K KP E HE m fuel k HS xs s outs z Hr Hall H).
Qed.

(** Every byte of the output is what the reference encoder of C96 says for those calls ... *)
Theorem C101_bytes {P : Params} {St} (R : ra_impl St) inv contents empties :
  cfg_ok -> keeps_contract (r_st R) inv contents empties -> reserve_keeps_pos (r_st R) inv ->
  forall k E m, storage_for k R inv contents -> wf_env E ->
  forall fuel xs s ps z, ready (r_st R) inv s ->
  let b := i_pos (r_st R) s in
  let rs := roots_from E b xs in
  Forall (root_in E m fuel) rs -> Forall root_plain rs -> Forall root_no_fields rs ->
  r_all R k E m fuel xs (g_from_storage s) = Ok ps z ->
  let s' := gz_st z in
  let B := g_read_base R k s' in
  ps = roots_pos E b rs /\ as_encoded k E m (g_out_mem (r_st R) contents B s') B b (i_pos (r_st R) s') rs.
Proof.
  intros C K KP k E m HS HE fuel xs s ps z Hr b rs H1 H2 H3 H s' B.
  rewrite (C101_same R inv contents empties C K KP k E m HS HE fuel xs s Hr H1 (proj1 (plain_roots empties rs H2))) in H.
  exact (C96_hand_written R inv contents empties C K KP k E m HS HE fuel rs s ps z Hr H1 H2 H3 H).
Qed.
(** ... so over two storages of any kinds, starting at the same position, implementations are given the same positions, make the same calls, and
    the outputs differ in padding and in the bytes of pointers (to the same positions) only. *)
Theorem C101_same_output {P : Params} {S1 S2} (R1 : ra_impl S1) (R2 : ra_impl S2) inv1 contents1 empties1 inv2 contents2 empties2 :
  cfg_ok -> keeps_contract (r_st R1) inv1 contents1 empties1 -> reserve_keeps_pos (r_st R1) inv1 ->
  keeps_contract (r_st R2) inv2 contents2 empties2 -> reserve_keeps_pos (r_st R2) inv2 ->
  forall k E m, storage_for k R1 inv1 contents1 -> storage_for k R2 inv2 contents2 -> wf_env E ->
  forall fuel xs s1 s2 ps1 ps2 z1 z2,
  ready (r_st R1) inv1 s1 -> ready (r_st R2) inv2 s2 -> i_pos (r_st R1) s1 = i_pos (r_st R2) s2 ->
  let b := i_pos (r_st R1) s1 in
  let rs := roots_from E b xs in
  Forall (root_in E m fuel) rs -> Forall root_plain rs -> Forall root_no_fields rs ->
  r_all R1 k E m fuel xs (g_from_storage s1) = Ok ps1 z1 ->
  r_all R2 k E m fuel xs (g_from_storage s2) = Ok ps2 z2 ->
  let B1 := g_read_base R1 k (gz_st z1) in
  let B2 := g_read_base R2 k (gz_st z2) in
  ps1 = ps2 /\ i_pos (r_st R1) (gz_st z1) = i_pos (r_st R2) (gz_st z2) /\
  forall i, b <= i -> i < i_pos (r_st R1) (gz_st z1) -> ~ padding b (roots_slices E rs) i ->
    same_output (g_out_mem (r_st R1) contents1 B1 (gz_st z1)) B1 (g_out_mem (r_st R2) contents2 B2 (gz_st z2)) B2 i.
Proof.
  intros C K1 KP1 K2 KP2 k E m HS1 HS2 HE fuel xs s1 s2 ps1 ps2 z1 z2 Hr1 Hr2 Hb b rs A1 A2 A3 H1 H2 B1 B2.
  destruct (C101_bytes R1 inv1 contents1 empties1 C K1 KP1 k E m HS1 HE fuel xs s1 ps1 z1 Hr1 A1 A2 A3 H1) as (X2 & X3 & X4).
  pose proof (C101_bytes R2 inv2 contents2 empties2 C K2 KP2 k E m HS2 HE fuel xs s2 ps2 z2 Hr2) as Y. cbv zeta in Y.
  rewrite <- Hb in Y. fold b rs in Y. destruct (Y A1 A2 A3 H2) as (Y2 & Y3 & _).
  split; [rewrite X2, Y2; reflexivity|]. split.
  - pose proof (C101_any_storage R1 inv1 contents1 empties1 C K1 KP1 k E m HS1 HE fuel xs s1 Hr1 A1 A2) as W1. rewrite H1 in W1.
    pose proof (C101_any_storage R2 inv2 contents2 empties2 C K2 KP2 k E m HS2 HE fuel xs s2 Hr2) as W2. cbv zeta in W2. rewrite <- Hb in W2. fold b rs in W2.
    specialize (W2 A1 A2). rewrite H2 in W2. destruct W1 as (_ & -> & _), W2 as (_ & -> & _). reflexivity.
  - intros i I1 I2 I3. specialize (X3 i). specialize (Y3 i). fold b rs in X3, X4.
    destruct (found (roots_pieces k E m b rs) i) as [[c|q t]|] eqn:Ef.
    + left. exact (eq_trans X3 (eq_sym Y3)).
    + right. exists q, t. destruct (found_words k E m rs b i q t Ef) as [Q1 Q2]. split; [exact Q1|]. split; [exact Q2|]. split; [exact X3|exact Y3].
    + exfalso. apply I3. exact (X4 i I1 I2 Ef).
Qed.

(** Over AlignedVec. *)
Theorem C101_aligned_vec {P : Params} : cfg_ok -> alloc_ok ->
  forall k E m, wf_env E -> forall fuel xs s, ready aligned_vec av_inv s -> Forall (rules_for E m fuel false) xs ->
  match r_session aligned_vec_ra k E m fuel xs (g_from_storage s) with
  | Ok outs z =>
      let B := g_read_base aligned_vec_ra k (gz_st z) in
      ready aligned_vec av_inv (gz_st z) /\
      g_attempts k E m aligned_vec av_inv (g_out_mem aligned_vec av_contents B (gz_st z)) B (i_pos aligned_vec s) (roots_at E xs outs) outs (i_pos aligned_vec (gz_st z))
  | Abort => True
  | Panic _ _ | UB | OutOfFuel => False
  end.
Proof.
  intros C A k E m HE fuel xs s Hr Hall. destruct (aligned_vec_serializers C A) as (K & KP & HS & _).
  pose proof (C101_session aligned_vec_ra av_inv av_contents false C K KP k E m (HS k) HE fuel xs s Hr Hall) as X.
  destruct (r_session aligned_vec_ra k E m fuel xs (g_from_storage s)); auto. cbv zeta in X |- *. destruct X as (X1 & X2 & X3 & X4 & X5). auto.
Qed.

(** Implementations that take no notice of what they are given make the calls of C89. *)
Fixpoint takes_no_notice (ss : list step) : reacts :=
  match ss with
  | [] => RDone
  | s :: ss' => RCall s (fun _ => takes_no_notice ss')
  end.
Theorem C101_fixed {P : Params} {St} (R : ra_impl St) k E m fuel : forall ss,
  (forall cur, calls_from E cur (takes_no_notice ss) = ss) /\
  (forall a z, r_run R k E m fuel a (takes_no_notice ss) z = g_run_steps R k E m fuel a ss z).
Proof.
  induction ss as [|s ss [I1 I2]]; [split; intros; reflexivity|]. split.
  - intros cur. cbn. f_equal. apply I1.
  - intros a z. cbn [takes_no_notice r_run g_run_steps]. unfold bind at 2. rewrite (call_run R E m fuel k a s z). unfold bind at 1 2.
    destruct (r_call R k E m fuel a s z) as [x z1| | | |]; auto. exact (I2 a z1).
Qed.

(** An implementation that pushes data and stores, in its own value, the position it was told: in a complete output that
    word is the position at which the data is. *)
Definition stores_position {P : Params} (off : N) (l : layout) (tp n : N) : reacts :=
  RCall (SRaw l tp n) (fun q => RCall (SOver off usize_layout (word_src q)) (fun _ => RDone)).
Theorem C101_position {P : Params} {St} (R : ra_impl St) inv contents empties :
  cfg_ok -> keeps_contract (r_st R) inv contents empties -> reserve_keeps_pos (r_st R) inv ->
  forall E m, storage_for Complete R inv contents -> wf_env E ->
  forall fuel l a off l' tp n s, ready (r_st R) inv s ->
  good_layout l -> a + l_size l <= umod -> off + pW <= l_size l -> (pW | off) -> (pW | l_align l) ->
  slice_ok l' tp n -> 0 < l_size l' * n ->
  match r_all R Complete E m fuel [(l, a, stores_position off l' tp n)] (g_from_storage s) with
  | Ok ps z => exists p q,
      let B := r_as_ptr R (gz_st z) in
      let Mo := g_out_mem (r_st R) contents B (gz_st z) in
      ps = [p] /\ read_word Mo (B + p + off) = Some q /\
      q + l_size l' * n <= i_pos (r_st R) (gz_st z) /\
      (forall i, i < l_size l' * n -> Mo (B + (q + i)) = m (tp + i))
  | Panic e z =>
      refused_within (r_st R) inv (i_pos (r_st R) s) (push_end (push_end (i_pos (r_st R) s) l 1) l' n) e /\
      ready (r_st R) inv (gz_st z)
  | Abort => True
  | UB | OutOfFuel => False
  end.
Proof.
  intros C K KP E m HS HE fuel l a off l' tp n s Hr Hl Ha Hoff Ho Hal Hsl Hn.
  assert (Hpw : 0 < pW) by (pose proof (pW_vals (c_machine C)); lia).
  assert (HM : pW <= MVA).
  { destruct Hl as (H2 & _ & _ & H1). exact (word_fits _ H2 H1 Hal). }
  pose proof (usize_good C HM) as HU.
  set (q := slice_pos (push_end (i_pos (r_st R) s) l 1) l').
  pose proof (C101_any_storage R inv contents empties C K KP Complete E m HS HE fuel [(l, a, stores_position off l' tp n)] s Hr) as X.
  cbv zeta in X. cbn [roots_from stores_position calls_from answer] in X. fold q in X.
  set (ss := [SRaw l' tp n; SOver off usize_layout (word_src q)]) in *.
  assert (Hss : steps_ok E m fuel (l_size l) (l_align l) a ss).
  { constructor; [apply OK_raw; exact Hsl|intros s' i _ []|]. constructor; [|intros s' i []|constructor].
    apply OK_over; auto. }
  specialize (X ltac:(constructor; [|constructor]; cbn [root_in]; ands; auto; lia)).
  specialize (X ltac:(constructor; [|constructor]; unfold root_plain, ss; cbn [snd forallb plain]; unfold plain_slice; apply andb_true_intro; split; [lia|reflexivity])).
  destruct (r_all R Complete E m fuel [(l, a, stores_position off l' tp n)] (g_from_storage s)) as [ps z|e z| | |]; auto.
  - destruct X as (X1 & X2 & X3 & X4 & X5). cbn [roots_pos roots_end regions g_read_base] in *. destruct X5 as [X5 _].
    exists (push_start (i_pos (r_st R) s) l), q. cbv zeta. set (B := r_as_ptr R (gz_st z)) in *.
    inversion X5 as [? ? ? ? ? _ XI]; subst. inversion XI as [|? ? ? ? ? Y1 Y2]; subst. inversion Y2 as [|? ? ? ? ? Y3 _]; subst.
    inversion Y1 as [| |? ? ? ? ? ? Y4| | |]; subst. inversion Y3 as [| | |? ? ? ? ? ? Y5 _| |]; subst.
    assert (Hq : q + l_size l' * n <= i_pos (r_st R) (gz_st z)).
    { rewrite X2. unfold ss, steps_end. cbn [fold_left step_end]. unfold q, slice_pos, slice_end. destruct (l_size l' =? 0) eqn:E0; [lia|]. apply push_end_ge; exact C. }
    destruct (ready_le R inv contents empties K _ X3) as [Z1 Z2]. pose proof (c_sum C). pose proof (c_umod C).
    ands; auto.
    + apply read_word_src; [lia|]. intros i Hi. rewrite <- !N.add_assoc. rewrite <- (Y5 eq_refl i Hi). f_equal. lia.
    + intros i Hi. fold q in Y4. rewrite <- Y4 by lia. reflexivity.
  - destruct X as (X1 & X2 & _). split; [|exact X2].
    cbn [roots_end] in X1. unfold ss, steps_end in X1. cbn [fold_left step_end] in X1. unfold slice_end in X1.
    destruct (N.eqb_spec (l_size l') 0); [lia|exact X1].
Qed.

(** ** A value whose implementation asks where it is, stores that in a value it pushes, and goes on one way or another according to
    the position a string went to; the buffer of 256 bytes of C95, whose block moves on the way. *)
Definition at_offset (x : N) : reacts := RCall (SOver 80 u64_layout (bytes_src (w64 x))) (fun _ => RDone).
Definition demo_react : reacts :=
  RPush 8 u64_layout 8192 1 (RAsk (fun b => RCall (SOver 0 u64_layout (bytes_src (w64 b))) (fun _ => RDone)))
    (fun _ => RCall (SPushPlain 40 (mkLayout 1 1) 8224 2)
      (fun r => if r <? 200 then RCall (SRaw (mkLayout 2 2) 8208 2) at_offset else at_offset r)).
Definition demo_reacts : list (layout * N * reacts) := [(mkLayout 88 8, 4096, demo_react); (mkLayout 88 8, 4096, demo_react); (mkLayout 88 8, 4096, demo_react)].

Lemma demo_react_ok b : @root_in demo no_env demo_mem 10 (@root_at demo no_env (mkLayout 88 8, 4096, demo_react) b) /\
  root_plain (@root_at demo no_env (mkLayout 88 8, 4096, demo_react) b).
Proof.
  assert (Hs : forall l tp n, @good_layout demo l -> l_size l <= 1000 -> 0 < n <= 1000 -> tp <= 10000 -> @slice_ok demo l tp n).
  { intros l tp n H1 H2 H3 H4. unfold slice_ok. change (@imax demo) with 9223372036854775807.
    change (@umod demo) with 18446744073709551616. ands; auto; try lia; nia. }
  assert (HO : forall x, @step_ok demo no_env demo_mem 10 88 8 4096 (SOver 80 u64_layout (bytes_src (w64 x)))).
  { intros x. apply OK_over; [gl|cbn; lia|le|dv|dv]. }
  unfold root_at, demo_react. cbn [calls_from]. generalize (@slice_pos demo (@push_end demo b (mkLayout 88 8) 1) u64_layout) as q.
  intros q. generalize (@slice_end demo (@push_end demo b (mkLayout 88 8) 1) u64_layout 1) as q'. intros q'.
  match goal with |- context [@answer demo ?c (SPushPlain 40 (mkLayout 1 1) 8224 2)] => generalize (@answer demo c (SPushPlain 40 (mkLayout 1 1) 8224 2)); intros r end.
  destruct (r <? 200); cbn [calls_from at_offset]; split.
  - cbn [root_in]. split; [gl|]. split; [cbn; lia|]. split; [le|].
    constructor; [|apart|constructor; [|apart|constructor; [|apart|constructor; [apply HO|apart|constructor]]]].
    + apply OK_push; [le|dv|dv|apply Hs; [gl|cbn; lia|lia|lia]|]. constructor; [|intros s' i []|constructor]. apply OK_over; [gl|cbn; lia|le|dv|dv].
    + apply OK_plain; [le|dv|dv|apply Hs; [gl|cbn; lia|lia|lia]].
    + apply OK_raw. apply Hs; [gl|cbn; lia|lia|lia].
  - reflexivity.
  - cbn [root_in]. split; [gl|]. split; [cbn; lia|]. split; [le|].
    constructor; [|apart|constructor; [|apart|constructor; [apply HO|apart|constructor]]].
    + apply OK_push; [le|dv|dv|apply Hs; [gl|cbn; lia|lia|lia]|]. constructor; [|intros s' i []|constructor]. apply OK_over; [gl|cbn; lia|le|dv|dv].
    + apply OK_plain; [le|dv|dv|apply Hs; [gl|cbn; lia|lia|lia]].
  - reflexivity.
Qed.

Theorem C101_witness :
  @keeps_contract demo _ (r_st small_storage) (fixed_inv 256) fx_buf true /\
  @reserve_keeps_pos demo _ (r_st small_storage) (fixed_inv 256) /\
  (forall k, @storage_for demo _ k small_storage (fixed_inv 256) fx_buf) /\
  @ready demo _ (r_st small_storage) (fixed_inv 256) (mkFixed 8 no_mem) /\
  Forall (@rules_for demo no_env demo_mem 10 true) demo_reacts /\
  Forall (@root_in demo no_env demo_mem 10) (@roots_from demo no_env 8 demo_reacts) /\
  Forall (root_plain) (@roots_from demo no_env 8 demo_reacts) /\
  (forall k, match @r_session demo _ small_storage k no_env demo_mem 10 demo_reacts (g_from_storage (mkFixed 8 no_mem)) with
   | Ok outs z => outs = [(8, Some 8); (120, Some 120); (224, None)] /\ fx_pos (gz_st z) = 224 /\
       let rd i := @read_word demo (fx_buf (gz_st z)) i in
       map rd [16; 88; 96; 200; 208] = match k with
         | Complete => [Some (1048576 + 96); Some 112; Some 104; Some 216; Some 216]
         | PtrOffset => [Some 96; Some 3; Some 77; Some 3; Some 77]
         | _ => [Some 8192; Some 3; Some 77; Some 3; Some 77] end
   | _ => False end).
Proof.
  destruct small_contract as (W1 & W2 & W3 & W4). split; [exact W1|]. split; [exact W2|]. split; [exact W3|]. split; [exact W4|].
  assert (HR : forall b, @root_proper demo true (@root_at demo no_env (mkLayout 88 8, 4096, demo_react) b)).
  { intros b. apply Forall_forall. intros s Hs. apply (plain_proper (P := demo)). destruct (demo_react_ok b) as [_ Hp]. unfold root_plain in Hp. rewrite forallb_forall in Hp. auto. }
  split; [|split; [|split]].
  - assert (X : @rules_for demo no_env demo_mem 10 true (mkLayout 88 8, 4096, demo_react)) by (intros b _; split; [apply demo_react_ok|apply HR]).
    repeat (constructor; [exact X|]). constructor.
  - repeat (constructor; [apply demo_react_ok|]). constructor.
  - repeat (constructor; [apply demo_react_ok|]). constructor.
  - intros k; destruct k; vm_compute; repeat split; reflexivity.
Qed.

(** The data of C101_position: two u16 after a value of 16 bytes. *)
Theorem C101_position_witness :
  @good_layout demo (mkLayout 16 8) /\ 4096 + 16 <= @umod demo /\ 8 + @pW demo <= 16 /\ (@pW demo | 8) /\
  @slice_ok demo (mkLayout 2 2) 8208 2 /\
  match @r_all demo _ small_storage Complete no_env demo_mem 10 [(mkLayout 16 8, 4096, stores_position (P := demo) 8 (mkLayout 2 2) 8208 2)] (g_from_storage (mkFixed 8 no_mem)) with
  | Ok ps z => ps = [8] /\ fx_pos (gz_st z) = 32 /\ @read_word demo (fx_buf (gz_st z)) 16 = Some 24 /\ map (fx_buf (gz_st z)) [24; 25; 26; 27] = [Some 2; Some 1; Some 4; Some 3]
  | _ => False
  end.
Proof.
  split; [gl|]. split; [le|]. split; [le|]. split; [dv|]. split; [|vm_compute; repeat split; reflexivity].
  unfold slice_ok. split; [gl|]. change (@imax demo) with 9223372036854775807. change (@umod demo) with 18446744073709551616. cbn [l_size]. lia.
Qed.

(** C101_bytes for the first two values of C101_witness: what the encoder says, and the output. *)
Theorem C101_bytes_witness :
  let xs := firstn 2 demo_reacts in let rs := @roots_from demo no_env 8 xs in
  Forall (@root_in demo no_env demo_mem 10) rs /\ Forall root_plain rs /\ Forall root_no_fields rs /\
  map (found (@roots_pieces demo Complete no_env demo_mem 8 rs)) [7; 16; 88; 89; 96; 208] =
    [None; Some (OfWord 16 96); Some (Byte (Some 112)); Some (Byte (Some 0)); Some (Byte (Some 104)); Some (Byte (Some 216))] /\
  match @r_all demo _ small_storage Complete no_env demo_mem 10 xs (g_from_storage (mkFixed 8 no_mem)) with
  | Ok ps z => ps = [8; 120] /\ fx_pos (gz_st z) = 224 /\ map (fx_buf (gz_st z)) [88; 89; 96; 208] = [Some 112; Some 0; Some 104; Some 216]
  | _ => False
  end.
Proof.
  intros xs rs. split; [|split; [|split; [|split]]].
  - repeat (constructor; [apply demo_react_ok|]). constructor.
  - repeat (constructor; [apply demo_react_ok|]). constructor.
  - repeat (constructor; [vm_compute; reflexivity|]). constructor.
  - vm_compute. reflexivity.
  - vm_compute. repeat split; reflexivity.
Qed.
