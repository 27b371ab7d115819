(** * PropBytes: every byte a program's serialization puts into the output, by a reference encoder (C96). *)
From Coq Require Import Arith.
From Verif Require Import Base Types Storage Serializer Serialize Spec ArithFacts StorageFacts StorageHist MemFacts TypeFacts SerFacts SerMain SerValue SerRoot SerProps
  Client ClientSpec ClientFacts PropClient PropResume
  GenStorage GenSpec GenFacts PropGen GenSerializer GenSerSpec GenSerAV GenSerFacts GenSerRoot PropGenSer
  GenClient GenClientSpec GenClientFacts GenSession PropGenClient
  Derive DeriveSpec Mixed MixedFacts PropMixed MixedValid PropMixedValue PropMixedSession GenMixed GenMixedFacts Relocate Deleg DelegFacts DelegValid PropDeleg
  PropGenSession Bytes.
From Coq Require Import ZifyBool ZifyNat ZifyN.
Local Open Scope N_scope.

Lemma plain_calm {P : Params} rs : Forall root_plain rs -> Forall (fun r => existsb may_panic (snd r) = false) rs.
Proof.
  intros H. eapply Forall_impl; [|exact H]. intros [[l a] ss] Hp. unfold root_plain in Hp. cbn [snd] in *. clear - Hp P.
  induction ss as [|s ss IH]; [reflexivity|]. cbn [forallb existsb] in *. apply andb_prop in Hp. destruct Hp as [P1 P2].
  rewrite (proj2 (plain_proper true s P1)). auto.
Qed.

(** ** Hand-written implementations *)
(** An output is as [bytes_of] says: what the pieces put there is there, and all else in it is padding. *)
Definition as_encoded {P : Params} (k : kind) (E : tenv) (m Mo : mem) (B b e : N) (rs : list (layout * N * list step)) : Prop :=
  encoded Mo B (roots_pieces k E m b rs) /\
  forall i, b <= i -> i < e -> found (roots_pieces k E m b rs) i = None -> padding b (roots_slices E rs) i.

Theorem C96_hand_written {P : Params} {St} (R : ra_impl St) inv contents empties :
  cfg_ok -> keeps_contract (r_st R) inv contents empties -> reserve_keeps_pos (r_st R) inv ->
  forall k E m, storage_for k R inv contents -> wf_env E ->
  forall fuel rs s ps z, ready (r_st R) inv s ->
  Forall (root_in E m fuel) rs -> Forall root_plain rs -> Forall root_no_fields rs ->
  g_client_all R k E m fuel rs (g_from_storage s) = Ok ps z ->
  let b := i_pos (r_st R) s in
  let s' := gz_st z in
  let B := g_read_base R k s' in
  ps = roots_pos E b rs /\ as_encoded k E m (g_out_mem (r_st R) contents B s') B b (i_pos (r_st R) s') rs.
Proof.
  intros C K KP k E m HS HE fuel rs s ps z Hr Hrs Hp Hn Hg b s' B.
  pose proof (C89_custom_impls_any_storage R inv contents empties C K KP k E m HS HE fuel rs s Hr Hrs Hp) as HH. rewrite Hg in HH.
  destruct HH as (H1 & H2 & _ & _ & H5). split; [exact H1|]. split.
  - exact (regions_encoded k E m _ B rs b H5 Hn).
  - intros i I1 I2 I3. apply (roots_gap k E m rs (plain_calm rs Hp) Hn b i I1); [|exact I3]. unfold b. rewrite <- H2. exact I2.
Qed.

(** ** Programs: impls of the crate, derived or by hand, that hand parts on to one another *)
Theorem C96_programs {P : Params} {L : Lexer} {St} (R : ra_impl St) inv contents empties :
  cfg_ok -> keeps_contract (r_st R) inv contents empties -> reserve_keeps_pos (r_st R) inv ->
  forall pg k m f xs s ps z, let E := pr_env pg in
  storage_for k R inv contents -> lexer_ok -> wf_env E -> program_ok pg -> delegates_well pg m -> plain_program pg m ->
  ready (r_st R) inv s -> Forall (session_input E m f) xs ->
  g_dx_all R pg k m f (map place_of xs) (g_from_storage s) = Ok ps z ->
  let b := i_pos (r_st R) s in
  let s' := gz_st z in
  let B := g_read_base R k s' in
  exists rs, Forall2 (dx_calls_of pg m f) xs rs /\
    ps = roots_pos E b rs /\ as_encoded k E m (g_out_mem (r_st R) contents B s') B b (i_pos (r_st R) s') rs.
Proof.
  intros C K KP pg k m f xs s ps z E HS LO HE PO DW PP Hr Hxs Hg b s' B.
  destruct (C92_calls_any_storage R pg k m f xs C LO HE PO DW Hxs) as (rs & R1 & R2 & R3 & R4).
  exists rs. split; [exact R1|]. fold E in R4. rewrite R4 in Hg.
  exact (C96_hand_written R inv contents empties C K KP k E m HS HE 0 rs s ps z Hr R2 (dx_plain pg m f xs rs PP R1) R3 Hg).
Qed.

(** ** Sessions in which values may panic *)
(** What a session's output is: the output of each value whose call returned is as encoded, from where that call began. *)
Definition session_encoded {P : Params} (k : kind) (E : tenv) (m Mo : mem) (B : N) (r : layout * N * list step) (o : N * option N) : Prop :=
  forall p, snd o = Some p -> p = push_start (fst o) (fst (fst r)) /\ encoded Mo B (root_pieces k E m (fst o) r).
Lemma dx_no_fields {P : Params} {L : Lexer} pg m f xs rs : Forall2 (dx_calls_of pg m f) xs rs -> Forall root_no_fields rs.
Proof.
  induction 1 as [|[[t a] v] [[l a'] ss] xs rs Hc Hr IH]; constructor; [|exact IH]. destruct Hc as (_ & _ & Hc). exact (calls_no_fields pg m f t a ss Hc).
Qed.
Lemma attempts_encoded {P : Params} k E m {St} (I : storage_impl St) inv Mo B b rs outs e :
  g_attempts k E m I inv Mo B b rs outs e -> Forall root_no_fields rs -> Forall2 (session_encoded k E m Mo B) rs outs.
Proof.
  induction 1 as [b|b l a ss rs outs e HR A IH|b l a ss rs outs e b' HP Hb A IH]; intros HN; inversion HN; subst; constructor; auto.
  - intros p Hp. cbn [fst snd] in *. injection Hp as <-. split; [reflexivity|]. apply root_encoded; assumption.
  - intros p Hp. discriminate Hp.
Qed.
Lemma attempts_encoded_av {P : Params} k E m Mo B b rs outs e :
  attempts k E m Mo B b rs outs e -> Forall root_no_fields rs -> Forall2 (session_encoded k E m Mo B) rs outs.
Proof.
  induction 1 as [b|b l a ss rs outs e HR HM A IH|b l a ss rs outs e b' HP Hb A IH]; intros HN; inversion HN; subst; constructor; auto.
  - intros p Hp. cbn [fst snd] in *. injection Hp as <-. split; [reflexivity|]. apply root_encoded; assumption.
  - intros p Hp. discriminate Hp.
Qed.
Theorem C96_sessions {P : Params} {L : Lexer} {St} (R : ra_impl St) inv contents empties :
  cfg_ok -> keeps_contract (r_st R) inv contents empties -> reserve_keeps_pos (r_st R) inv ->
  forall pg k m f xs s outs z, let E := pr_env pg in
  storage_for k R inv contents -> lexer_ok -> wf_env E -> program_ok pg -> delegates_well pg m -> proper_program empties pg m ->
  ready (r_st R) inv s -> Forall (session_input E m f) xs ->
  g_dx_session R pg k m f (map place_of xs) (g_from_storage s) = Ok outs z ->
  let B := g_read_base R k (gz_st z) in
  exists rs, Forall2 (dx_calls_of pg m f) xs rs /\
    Forall2 (session_encoded k E m (g_out_mem (r_st R) contents B (gz_st z)) B) rs outs.
Proof.
  intros C K KP pg k m f xs s outs z E HS LO HE PO DW PP Hr Hxs Hg B.
  destruct (C95_programs R inv contents empties C K KP pg k m f xs s HS LO HE PO DW PP Hr Hxs) as (rs & R1 & R3).
  fold E in R3. rewrite Hg in R3. destruct R3 as (_ & _ & _ & A). exists rs. split; [exact R1|].
  exact (attempts_encoded k E m _ _ _ B _ rs outs _ A (dx_no_fields pg m f xs rs R1)).
Qed.
(** ... and AlignedVec, with any storage calls but clear. *)
Theorem C96_aligned_vec {P : Params} {L : Lexer} : forall pg k m f xs w outs z, let E := pr_env pg in
  cfg_ok -> alloc_ok -> lexer_ok -> wf_env E -> program_ok pg -> delegates_well pg m -> storage_ok w ->
  Forall (session_input E m f) xs ->
  dx_session pg k m f (map place_of xs) (from_storage w) = Ok outs z ->
  let B := read_base k (z_sw z) in
  exists rs, Forall2 (dx_calls_of pg m f) xs rs /\
    Forall2 (session_encoded k E m (out_mem B (z_sw z)) B) rs outs.
Proof.
  intros pg k m f xs w outs z E C HA LO HE PO DW Hok Hxs Hg B.
  destruct (C92_session pg k m f xs w C HA LO HE PO DW Hok Hxs) as (rs & R1 & _ & R3).
  fold E in R3. rewrite Hg in R3. destruct R3 as (A & _). exists rs. split; [exact R1|].
  exact (attempts_encoded_av k E m _ B _ rs outs _ A (dx_no_fields pg m f xs rs R1)).
Qed.

(** ** The same output whatever the storage *)
Lemma dx_calls_unique {P : Params} {L : Lexer} pg m f xs rs rs' :
  Forall2 (dx_calls_of pg m f) xs rs -> Forall2 (dx_calls_of pg m f) xs rs' -> rs = rs'.
Proof.
  intros H. revert rs'. induction H as [|[[t a] v] [[l a'] ss] xs rs Hc Hr IH]; intros rs' H'; inversion H' as [|? r' ? ? Hc' Hr' Q1 Q2]; subst; [reflexivity|].
  destruct r' as [[lx bx] sx]. destruct Hc as (-> & -> & Hc), Hc' as (-> & -> & Hc'). rewrite Hc in Hc'. injection Hc' as <-. f_equal. auto.
Qed.
(** Two storages of any kinds, the serializations starting at the same position: the values are at the same positions, and what is not padding is
    byte for byte the same but for pointer words, which are at the same positions and point to the same positions. *)
Definition same_output {P : Params} (M1 : mem) (B1 : N) (M2 : mem) (B2 : N) (i : N) : Prop :=
  M1 (B1 + i) = M2 (B2 + i) \/
  exists q t, q <= i /\ i < q + pW /\ read_word M1 (B1 + q) = Some (B1 + t) /\ read_word M2 (B2 + q) = Some (B2 + t).
Lemma found_word {P : Params} k E m : forall ss, 
  forall p cur i q t, found (steps_pieces k E m p cur ss) i = Some (OfWord q t) -> q <= i /\ i < q + pW.
Proof.
  assert (PP : forall p t0 i q t, found (ptr_piece k p t0) i = Some (OfWord q t) -> q <= i /\ i < q + pW).
  { intros p t0 i q t. unfold ptr_piece. destruct (tracking k); [|discriminate]. cbn [found]. destruct (N.leb_spec p i); cbn [andb]; [|discriminate].
    destruct (N.ltb_spec i (p + pW)); [|discriminate]. intros HH. injection HH as <- _. auto. }
  assert (CP : forall p a n ws i q t, found (copy_piece m p a n :: ws) i = Some (OfWord q t) -> found ws i = Some (OfWord q t)).
  { intros p a n ws i q t. unfold copy_piece. cbn [found]. destruct (found ws i); [auto|]. destruct ((p <=? i) && (i <? p + n)); discriminate. }
  apply (steps_induct (fun s => forall p cur i q t, found (step_pieces k E m p cur s) i = Some (OfWord q t) -> q <= i /\ i < q + pW)
    (fun ss => forall p cur i q t, found (steps_pieces k E m p cur ss) i = Some (OfWord q t) -> q <= i /\ i < q + pW)); try discriminate.
  - intros off l tp n body IH p cur i q t. rewrite pieces_push, found_app.
    match goal with |- context [match found ?w i with _ => _ end] => destruct (found w i) eqn:Ef end; [|apply PP].
    intros HH. injection HH as ->. apply CP in Ef. exact (IH _ _ _ _ _ Ef).
  - intros off l tp n p cur i q t. cbn [step_pieces]. rewrite found_app.
    match goal with |- context [match found ?w i with _ => _ end] => destruct (found w i) eqn:Ef end; [|apply PP].
    intros HH. injection HH as ->. apply CP in Ef. discriminate Ef.
  - intros l tp n p cur i q t Ef. cbn [step_pieces] in Ef. apply CP in Ef. discriminate Ef.
  - intros off l data p cur i q t. cbn [step_pieces]. destruct k; try (intros HH; discriminate HH). cbn [found]. match goal with |- context [if ?c then _ else _] => destruct c end; intros HH; discriminate HH.
  - intros o p cur i q t. cbn [step_pieces]. destruct (ClientSpec.op_data o) as [[[l n] d]|]; [|intros HH; discriminate HH]. cbn [found]. match goal with |- context [if ?c then _ else _] => destruct c end; intros HH; discriminate HH.
  - intros s ss I1 I2 p cur i q t. cbn [steps_pieces]. rewrite found_app. destruct (found (steps_pieces k E m p (step_end E cur s) ss) i) eqn:Ef; [|apply I1].
    intros HH. injection HH as ->. exact (I2 _ _ _ _ _ Ef).
Qed.
Lemma found_words {P : Params} k E m : forall rs cur i q t, found (roots_pieces k E m cur rs) i = Some (OfWord q t) -> q <= i /\ i < q + pW.
Proof.
  induction rs as [|[[l a] ss] rs IH]; intros cur i q t; [discriminate|]. cbn [roots_pieces]. rewrite found_app.
  destruct (found (roots_pieces k E m (steps_end E (push_end cur l 1) ss) rs) i) eqn:Ef.
  - intros HH. injection HH as ->. exact (IH _ _ _ _ Ef).
  - unfold root_pieces, copy_piece. cbn [found]. destruct (found (steps_pieces k E m (push_start cur l) (push_end cur l 1) ss) i) eqn:Es.
    + intros HH. injection HH as ->. exact (found_word k E m ss _ _ _ _ _ Es).
    + destruct ((push_start cur l <=? i) && (i <? push_start cur l + l_size l)); discriminate.
Qed.
Theorem C96_same_output {P : Params} {L : Lexer} {S1 S2} (R1 : ra_impl S1) (R2 : ra_impl S2) inv1 contents1 empties1 inv2 contents2 empties2 :
  cfg_ok -> keeps_contract (r_st R1) inv1 contents1 empties1 -> reserve_keeps_pos (r_st R1) inv1 ->
  keeps_contract (r_st R2) inv2 contents2 empties2 -> reserve_keeps_pos (r_st R2) inv2 ->
  forall pg k m f xs s1 s2 ps1 ps2 z1 z2, let E := pr_env pg in
  storage_for k R1 inv1 contents1 -> storage_for k R2 inv2 contents2 ->
  lexer_ok -> wf_env E -> program_ok pg -> delegates_well pg m -> plain_program pg m ->
  ready (r_st R1) inv1 s1 -> ready (r_st R2) inv2 s2 -> i_pos (r_st R1) s1 = i_pos (r_st R2) s2 -> Forall (session_input E m f) xs ->
  g_dx_all R1 pg k m f (map place_of xs) (g_from_storage s1) = Ok ps1 z1 ->
  g_dx_all R2 pg k m f (map place_of xs) (g_from_storage s2) = Ok ps2 z2 ->
  let b := i_pos (r_st R1) s1 in
  let B1 := g_read_base R1 k (gz_st z1) in
  let B2 := g_read_base R2 k (gz_st z2) in
  ps1 = ps2 /\ i_pos (r_st R1) (gz_st z1) = i_pos (r_st R2) (gz_st z2) /\
  exists rs, Forall2 (dx_calls_of pg m f) xs rs /\
    forall i, b <= i -> i < i_pos (r_st R1) (gz_st z1) -> ~ padding b (roots_slices E rs) i ->
    same_output (g_out_mem (r_st R1) contents1 B1 (gz_st z1)) B1 (g_out_mem (r_st R2) contents2 B2 (gz_st z2)) B2 i.
Proof.
  intros C K1 KP1 K2 KP2 pg k m f xs s1 s2 ps1 ps2 z1 z2 E HS1 HS2 LO HE PO DW PP Hr1 Hr2 Hb Hxs Hg1 Hg2 b B1 B2.
  destruct (C96_programs R1 inv1 contents1 empties1 C K1 KP1 pg k m f xs s1 ps1 z1 HS1 LO HE PO DW PP Hr1 Hxs Hg1) as (rs & X1 & X2 & X3 & X4).
  destruct (C96_programs R2 inv2 contents2 empties2 C K2 KP2 pg k m f xs s2 ps2 z2 HS2 LO HE PO DW PP Hr2 Hxs Hg2) as (rs' & Y1 & Y2 & Y3 & Y4).
  pose proof (dx_calls_unique pg m f xs rs rs' X1 Y1) as <-. cbv zeta in *. fold E B1 B2 in X1, X2, X3, X4, Y2, Y3, Y4 |- *. rewrite <- Hb in Y2, Y3, Y4. split; [rewrite X2, Y2; reflexivity|].
  assert (He : i_pos (r_st R1) (gz_st z1) = i_pos (r_st R2) (gz_st z2)).
  { destruct (C92_calls_any_storage R1 pg k m f xs C LO HE PO DW Hxs) as (r1 & A1 & A2 & _ & A4).
    destruct (C92_calls_any_storage R2 pg k m f xs C LO HE PO DW Hxs) as (r2 & D1 & D2 & _ & D4).
    pose proof (dx_calls_unique pg m f xs r1 rs A1 X1) as ->. pose proof (dx_calls_unique pg m f xs r2 rs D1 X1) as ->.
    fold E in A4, D4. rewrite A4 in Hg1. rewrite D4 in Hg2.
    pose proof (C89_custom_impls_any_storage R1 inv1 contents1 empties1 C K1 KP1 k E m HS1 HE 0 rs s1 Hr1 A2 (dx_plain pg m f xs rs PP X1)) as H1. rewrite Hg1 in H1.
    pose proof (C89_custom_impls_any_storage R2 inv2 contents2 empties2 C K2 KP2 k E m HS2 HE 0 rs s2 Hr2 A2 (dx_plain pg m f xs rs PP X1)) as H2. rewrite Hg2 in H2.
    destruct H1 as (_ & -> & _), H2 as (_ & -> & _). rewrite Hb. reflexivity. }
  split; [exact He|]. exists rs. split; [exact X1|]. intros i I1 I2 I3.
  specialize (X3 i). specialize (Y3 i). fold b in X3, X4, Y3.
  destruct (found (roots_pieces k E m b rs) i) as [[c|q t]|] eqn:Ef.
  - left. rewrite X3. symmetry. exact Y3.
  - right. exists q, t. pose proof (found_words k E m rs b i q t Ef). tauto.
  - exfalso. apply I3. exact (X4 i I1 I2 Ef).
Qed.

(** ** The Box<Wrap> of C92: what the encoder says, and the output over a buffer of 256 bytes. *)
From Coq Require Import String.
From Verif Require Import PropStorage PropSerialize Demo WitnessSerialize WitnessDerive.
#[local] Existing Instance ascii_lexer.
Local Open Scope N_scope.
Definition deleg_roots : list (layout * N * list step) :=
  match @Deleg.calls demo _ deleg_prog deleg_mem 10 (TBox (TNamed 2)) 4096 with
  | Some ss => [(@layout_of demo deleg_env (TBox (TNamed 2)), 4096, ss)]
  | None => []
  end.
Theorem C96_witness :
  (* the hypotheses of the theorems *)
  plain_program (P := demo) deleg_prog deleg_mem /\ delegates_well (P := demo) deleg_prog deleg_mem /\
  @ready demo _ (r_st small_storage) (fixed_inv 256) (mkFixed 8 no_mem) /\
  Forall (@session_input demo deleg_env deleg_mem 10) [(TBox (TNamed 2), 4096, deleg_val)] /\
  Forall2 (dx_calls_of (P := demo) deleg_prog deleg_mem 10) [(TBox (TNamed 2), 4096, deleg_val)] deleg_roots /\
  (* what the encoder says *)
  map (found (@roots_pieces demo Complete deleg_env deleg_mem 8 deleg_roots)) [7; 8; 16; 24; 32; 40; 48; 56; 63; 64] =
    [None; Some (OfWord 8 16); Some (Byte (Some 11)); Some (OfWord 24 48); Some (OfWord 32 56); Some (Byte (Some 7)); Some (Byte (Some 21));
     Some (Byte (Some 99)); Some (Byte (Some 0)); None] /\
  (* and the output *)
  match @g_dx_all demo _ _ small_storage deleg_prog Complete deleg_mem 10 [(TBox (TNamed 2), 4096)] (g_from_storage (mkFixed 8 no_mem)) with
  | Ok ps z => ps = [8] /\ fx_pos (gz_st z) = 64 /\
      let B := g_read_base small_storage Complete (gz_st z) in
      let rd q := @read_word demo (g_out_mem (r_st small_storage) fx_buf B (gz_st z)) (B + q) in
      map rd [8; 16; 24; 32; 40; 48; 56] = [Some (B + 16); Some 11; Some (B + 48); Some (B + 56); Some 7; Some 21; Some 99]
  | _ => False
  end.
Proof.
  destruct (@C92_hypotheses) as (_ & _ & _ & DW & PP & _ & Hv & Hd & _). destruct small_contract as (_ & _ & _ & HR).
  split; [exact PP|]. split; [exact DW|]. split; [exact HR|]. split; [|split; [|split]].
  - constructor; [|constructor]. split; [exact Hv|]. split; [vm_compute; reflexivity|exact Hd].
  - unfold deleg_roots. destruct (@Deleg.calls demo _ deleg_prog deleg_mem 10 (TBox (TNamed 2)) 4096) as [ss|] eqn:Ec.
    + constructor; [|constructor]. split; [reflexivity|]. split; [reflexivity|exact Ec].
    + exfalso. assert (HH : match @Deleg.calls demo _ deleg_prog deleg_mem 10 (TBox (TNamed 2)) 4096 with Some _ => true | None => false end = true) by (vm_compute; reflexivity).
      rewrite Ec in HH. discriminate HH.
  - vm_compute. reflexivity.
  - vm_compute. repeat split; reflexivity.
Qed.
