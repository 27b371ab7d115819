(** * PropGenSession: serializing many values with one serializer over any storage, whatever panics (C95). *)
From Coq Require Import Arith.
From Verif Require Import Base Types Storage Serializer Serialize Spec ArithFacts StorageFacts StorageHist MemFacts TypeFacts SerFacts SerMain SerValue SerRoot SerProps
  Client ClientSpec ClientFacts PropClient PropResume
  GenStorage GenSpec GenFacts PropGen GenSerializer GenSerSpec GenSerAV GenSerFacts GenSerRoot PropGenSer
  GenClient GenClientSpec GenClientFacts GenSession PropGenClient
  Derive DeriveSpec Mixed MixedFacts PropMixed MixedValid PropMixedValue PropMixedSession GenMixed GenMixedFacts Deleg DelegFacts DelegValid PropDeleg.
Local Open Scope N_scope.

(** ** Any hand-written implementations *)
(** Implementations that keep to the rules of [steps_ok], make storage calls the storage's contract decides and may panic
    ([proper]), each value under catch_unwind, then finalize: no undefined behaviour, no panic gets out, what was stored
    before is kept, the storage is usable afterwards, and every value whose call returned has its whole image in the output; one
    whose call panicked has an implementation that panics, or the storage refused to make room for
    a part of that value's own output ([g_attempts]). *)
Theorem C95_session {P : Params} {St} (R : ra_impl St) inv contents empties :
  cfg_ok -> keeps_contract (r_st R) inv contents empties -> reserve_keeps_pos (r_st R) inv ->
  forall k E m, storage_for k R inv contents -> wf_env E ->
  forall fuel rs s, ready (r_st R) inv s ->
  Forall (root_in E m fuel) rs -> Forall (root_proper empties) rs ->
  match g_session R k E m fuel rs (g_from_storage s) with
  | Ok outs z =>
      let s' := gz_st z in
      let B := g_read_base R k s' in
      ready (r_st R) inv s' /\ i_pos (r_st R) s <= i_pos (r_st R) s' /\
      same_below (i_pos (r_st R) s) (contents s') (contents s) /\
      g_attempts k E m (r_st R) inv (g_out_mem (r_st R) contents B s') B (i_pos (r_st R) s) rs outs (i_pos (r_st R) s')
  | Abort => True
  | Panic _ _ | UB | OutOfFuel => False
  end.
Proof.
  intros C K KP k E m HS HE fuel rs s Hr Hall Hpr.
  exact (g_session_spec R C inv contents empties K KP E HE m fuel k HS rs s Hr Hall Hpr).
Qed.

(** What the attempts say of a storage that grows to a given capacity and no further: a value whose implementation cannot panic is
    lost only if its output would end beyond it. *)
Theorem C95_only_if_full {P : Params} {St} (I : storage_impl St) (inv : St -> Prop) (room : N) :
  (forall s n p s', inv s -> i_reserve I n s = Panic p s' -> room < i_pos I s + n) ->
  forall k E m Mo B b rs outs e,
  g_attempts k E m I inv Mo B b rs outs e ->
  Forall2 (fun r o => snd o = None ->
    existsb may_panic (snd r) = true \/ room < steps_end E (push_end (fst o) (fst (fst r)) 1) (snd r)) rs outs.
Proof.
  intros HR k E m Mo B b rs outs e HA. induction HA as [b|b l a ss rs outs e H1 H2 IH|b l a ss rs outs e b' H1 H2 H3 IH]; constructor; auto; cbn [fst snd].
  - discriminate.
  - intros _. destruct H1 as [H1|(x & s & n & s' & I1 & I2 & I3 & I4)]; [auto|]. right. pose proof (HR _ _ _ _ I1 I4). lia.
Qed.

(** If no implementation panics and the storage never refuses, all values are there, one after the other. *)
Theorem C95_all_there {P : Params} {St} (I : storage_impl St) (inv : St -> Prop) :
  (forall s n p s', inv s -> i_reserve I n s <> Panic p s') ->
  forall k E m Mo B b rs outs e,
  g_attempts k E m I inv Mo B b rs outs e ->
  Forall (fun r => existsb may_panic (snd r) = false) rs ->
  map snd outs = map Some (roots_pos E b rs) /\ e = roots_end E b rs /\ regions k E m Mo B b rs.
Proof.
  intros HR k E m Mo B b rs outs e HA. induction HA as [b|b l a ss rs outs e H1 H2 IH|b l a ss rs outs e b' H1 H2 H3 IH]; intros HN.
  - cbn. auto.
  - inversion HN; subst. destruct IH as (J1 & J2 & J3); [assumption|]. cbn [map snd roots_pos roots_end regions]. rewrite J1. auto.
  - exfalso. inversion HN as [|? ? HP _]; subst. cbn [snd] in HP. destruct H1 as [H1|(x & s & n & s' & I1 & I2 & I3 & I4)]; [congruence|].
    exact (HR _ _ _ _ I1 I4).
Qed.

(** Over AlignedVec this is the code of C57. *)
Section Same.
Context {P : Params}.
Variable k : kind.
Variable E : tenv.
Variable m : mem.
Variable fuel : nat.
Lemma sim_catch {A} (g : M (gz sw) A) (f : M zs A) : sim g f -> sim (g_catch g) (catch f).
Proof. intros H z. unfold g_catch, catch. rewrite <- (H z). destruct (g z); reflexivity. Qed.
Lemma sim_attempt_all : forall rs, sim (g_attempt_all aligned_vec_ra k E m fuel rs) (attempt_all k E m fuel rs).
Proof.
  induction rs as [|[[l a] ss] rs IH]; [apply sim_ret|]. cbn [g_attempt_all attempt_all].
  apply sim_bind; [intros z; reflexivity|intros b]. apply sim_bind; [apply sim_catch, sim_svw|intros r].
  apply sim_bind; [exact IH|intros outs; apply sim_ret].
Qed.
Theorem C95_aligned_vec rs s :
  match g_session aligned_vec_ra k E m fuel rs (g_from_storage s) with
  | Ok p z => session k E m fuel rs (from_storage s) = Ok p (to_zs z)
  | Panic e z => session k E m fuel rs (from_storage s) = Panic e (to_zs z)
  | Abort => session k E m fuel rs (from_storage s) = Abort
  | UB => session k E m fuel rs (from_storage s) = UB
  | OutOfFuel => session k E m fuel rs (from_storage s) = OutOfFuel
  end.
Proof.
  assert (HS : sim (g_session aligned_vec_ra k E m fuel rs) (session k E m fuel rs)).
  { unfold g_session, session. apply sim_bind; [apply sim_attempt_all|intros outs].
    apply sim_bind; [apply sim_finalize|intros _; apply sim_ret]. }
  specialize (HS (g_from_storage s)). change (to_zs (g_from_storage s)) with (from_storage s) in HS.
  destruct (g_session aligned_vec_ra k E m fuel rs (g_from_storage s)); symmetry; exact HS.
Qed.
End Same.

(** ** Values of any types of a program *)
(** The session is that of the calls the values make. *)
Lemma g_dx_is_attempts {P : Params} {L : Lexer} {St} (R : ra_impl St) : forall pg k m f xs,
  let E := pr_env pg in
  cfg_ok -> lexer_ok -> wf_env E -> program_ok pg -> delegates_well pg m ->
  Forall (session_input E m f) xs ->
  exists rs, Forall2 (dx_calls_of pg m f) xs rs /\ Forall (root_in E m 0) rs /\
    (forall z, g_dx_attempt_all R pg k m f (map place_of xs) z = g_attempt_all R k E m 0 rs z).
Proof.
  intros pg k m f xs E C LO HE PO DW Hxs.
  assert (X : exists rs, Forall2 (dx_calls_of pg m f) xs rs /\ Forall (root_in E m 0) rs /\
            geq (g_dx_attempt_all R pg k m f (map place_of xs)) (g_attempt_all R k E m 0 rs)).
  { induction xs as [|[[t a] v] xs IH].
    - exists []. ands; constructor.
    - inversion Hxs as [|x y H1 H2]; subst. destruct H1 as (Hv & Hs & Hf). destruct (IH H2) as (rs & I1 & I2 & I3).
      destruct (C92_calls pg k m t a v f C LO HE PO DW Hv Hf) as (ss & K1 & _ & K2 & K3 & _).
      destruct Hv as (Hw & Ha & Hr).
      pose proof (proj1 (proj1 (g_main R (written_out pg m f) k m 0 C HE LO (out_ok pg m f PO)) t a v Hr Hw Ha) ss (calls_make pg m LO PO f f ltac:(lia) t a ss K1) f Hf) as K4.
      assert (K5 : geq (g_dx_data R pg k m f t a) (g_run_steps R k E m 0 a ss)).
      { eapply geq_trans; [exact (g_dx_is_mx pg m C HE LO PO DW R k f f (le_n f) t a v (conj Hr (conj Hw Ha)) Hf)|exact K4]. }
      exists ((layout_of E t, a, ss) :: rs). ands.
      + constructor; [|exact I1]. cbn. auto.
      + constructor; [|exact I2]. unfold root_in. ands; [exact (wf_good C E HE t Hw)|exact Hs|exact Ha|exact K2].
      + cbn [map place_of fst g_dx_attempt_all g_attempt_all]. apply geq_bind; [apply geq_refl|intros b].
        apply geq_bind; [|intros r; apply geq_bind; [exact I3|intros; apply geq_refl]].
        intros z. unfold g_catch. rewrite (geq_svw R k (slice_at m (layout_of E t) a 1) _ _ K5 z). reflexivity. }
  exact X.
Qed.
Lemma g_dx_is_session {P : Params} {L : Lexer} {St} (R : ra_impl St) : forall pg k m f xs,
  let E := pr_env pg in
  cfg_ok -> lexer_ok -> wf_env E -> program_ok pg -> delegates_well pg m ->
  Forall (session_input E m f) xs ->
  exists rs, Forall2 (dx_calls_of pg m f) xs rs /\ Forall (root_in E m 0) rs /\
    (forall z, g_dx_session R pg k m f (map place_of xs) z = g_session R k E m 0 rs z).
Proof.
  intros pg k m f xs E C LO HE PO DW Hxs.
  destruct (g_dx_is_attempts R pg k m f xs C LO HE PO DW Hxs) as (rs & X1 & X2 & X3).
  exists rs. ands; auto. intros z. unfold g_dx_session, g_session. apply geq_bind; [exact X3|intros; apply geq_refl].
Qed.
Lemma dx_proper {P : Params} {L : Lexer} empties pg m f xs rs :
  proper_program empties pg m -> Forall2 (dx_calls_of pg m f) xs rs -> Forall (root_proper empties) rs.
Proof.
  intros PP. induction 1 as [|[[t a] v] [[l a'] ss] xs rs Hc Hr IH]; constructor; [|exact IH].
  destruct Hc as (_ & _ & Hc). exact (calls_proper pg m empties PP f t a ss Hc).
Qed.

(** Values of any types of a program whose impls may be the crate's, derived or hand-written and hand parts on to one another (C92),
    over any storage, whatever panics. *)
Theorem C95_programs {P : Params} {L : Lexer} {St} (R : ra_impl St) inv contents empties :
  cfg_ok -> keeps_contract (r_st R) inv contents empties -> reserve_keeps_pos (r_st R) inv ->
  forall pg k m f xs s, let E := pr_env pg in
  storage_for k R inv contents -> lexer_ok -> wf_env E -> program_ok pg -> delegates_well pg m -> proper_program empties pg m ->
  ready (r_st R) inv s -> Forall (session_input E m f) xs ->
  exists rs, Forall2 (dx_calls_of pg m f) xs rs /\
    match g_dx_session R pg k m f (map place_of xs) (g_from_storage s) with
    | Ok outs z =>
        let s' := gz_st z in
        let B := g_read_base R k s' in
        ready (r_st R) inv s' /\ i_pos (r_st R) s <= i_pos (r_st R) s' /\
        same_below (i_pos (r_st R) s) (contents s') (contents s) /\
        g_attempts k E m (r_st R) inv (g_out_mem (r_st R) contents B s') B (i_pos (r_st R) s) rs outs (i_pos (r_st R) s')
    | Abort => True
    | Panic _ _ | UB | OutOfFuel => False
    end.
Proof.
  intros C K KP pg k m f xs s E HS LO HE PO DW PP Hr Hxs.
  destruct (g_dx_is_session R pg k m f xs C LO HE PO DW Hxs) as (rs & R1 & R2 & R4).
  exists rs. split; [exact R1|]. rewrite R4.
  exact (C95_session R inv contents empties C K KP k E m HS HE 0 rs s Hr R2 (dx_proper empties pg m f xs rs PP R1)).
Qed.

(** ... and with a pointer-writing serializer every value whose call returned is there to be read, turned as its impls mean to. *)
Theorem C95_values {P : Params} {L : Lexer} {St} (R : ra_impl St) inv contents empties :
  cfg_ok -> keeps_contract (r_st R) inv contents empties -> reserve_keeps_pos (r_st R) inv ->
  forall pg by_hand by_proxy k m f xs s outs z, let E := pr_env pg in
  storage_for k R inv contents -> lexer_ok -> wf_env E -> program_ok pg -> delegates_well pg m -> proper_program empties pg m ->
  all_attain pg by_hand by_proxy k m -> tracking k = true ->
  ready (r_st R) inv s -> Forall (session_input E m f) xs ->
  g_dx_session R pg k m f (map place_of xs) (g_from_storage s) = Ok outs z ->
  let B := g_read_base R k (gz_st z) in
  Forall2 (fun x o => forall p, snd o = Some p -> exists v', turns pg by_hand by_proxy (fst (fst x)) (snd x) v' /\
      repr E any_header (g_out_mem (r_st R) contents B (gz_st z)) (fst (fst x)) (B + p) v') xs outs.
Proof.
  intros C K KP pg bh bp k m f xs s outs z E HS LO HE PO DW PP HT HTr Hr Hxs Hd B.
  destruct (C95_programs R inv contents empties C K KP pg k m f xs s HS LO HE PO DW PP Hr Hxs) as (rs & R1 & R3). rewrite Hd in R3. destruct R3 as (_ & _ & _ & A).
  fold E B in A |- *. set (Mo := g_out_mem (r_st R) contents B (gz_st z)) in *. clearbody B Mo.
  generalize dependent (i_pos (r_st R) s). generalize (i_pos (r_st R) (gz_st z)). intros e b A. clear Hd. revert xs Hxs R1.
  induction A as [b|b l a ss rs outs e HR A IH|b l a ss rs outs e b' HP Hb A IH]; intros xs Hxs R1; inversion R1 as [|[[t a0] v] r xs' rs' Hc R1']; subst; [constructor| |];
    inversion Hxs as [|x xs0 Hx Hxs']; subst; destruct Hc as (-> & -> & Hc); destruct Hx as ((Hw & Ha & Hv) & Hs & Hf); (constructor; [|apply IH; assumption]).
  - intros p Hp. cbn [snd] in Hp. injection Hp as <-.
    destruct (proj1 (valid (written_out pg m f) bh bp k m 0 C HE LO (out_ok pg m f PO) (out_wb pg m C HE LO PO DW f)
      (all_out pg bh bp k m C HE LO PO DW HTr HT f) HTr Mo B) t a0 v Hv Hw Ha) as [G _].
    destruct (G ss _ _ (calls_make pg m LO PO f f ltac:(lia) t a0 ss Hc) HR) as (v' & V1 & V2). exists v'. split; [|exact V2].
    exact (proj1 (turns_out pg bh bp m f) t v v' V1).
  - intros p Hp. discriminate Hp.
Qed.

(** ** A buffer of 256 bytes whose block moves on the way: a value that is stored, one whose implementation panics after it pushed
    something, one there is no more room for, one whose implementation stores some bytes of its own. *)
From Verif Require Import PropStorage PropSerialize Demo WitnessSerialize WitnessDerive.
#[local] Existing Instance ascii_lexer.
Local Open Scope N_scope.
Definition small_storage : ra_impl fixed := @fixed_ra demo 256 0 150 65536 1048576.
Definition own_bytes : list step := [SStore (OPushSlice u64_layout 1 (bytes_src (w64 55)))].
Definition gone_wrong : list step := [SPush 8 u64_layout 8192 1 [SOver 0 u64_layout (bytes_src (w64 99))]; SPanic].
Definition mixed_fates : list (layout * N * list step) :=
  [(mkLayout 88 8, 4096, gc_steps); (mkLayout 88 8, 4096, gone_wrong); (mkLayout 88 8, 4096, gc_steps); (u64_layout, 8192, own_bytes)].

Lemma small_contract :
  @keeps_contract demo _ (r_st small_storage) (fixed_inv 256) fx_buf true /\
  @reserve_keeps_pos demo _ (r_st small_storage) (fixed_inv 256) /\
  (forall k, @storage_for demo _ k small_storage (fixed_inv 256) fx_buf) /\
  @ready demo _ (r_st small_storage) (fixed_inv 256) (mkFixed 8 no_mem).
Proof.
  assert (C := demo_cfg). split; [|split; [|split]].
  - apply (@fixed_keeps_contract demo 256 0 C); [dv|vm_compute; discriminate|apply N.divide_0_r].
  - apply (@fixed_reserve_keeps_pos demo 256 0 eq_refl).
  - apply (@fixed_ra_for demo 256 0 150 65536 1048576 C); try discriminate; try dv; vm_compute; discriminate.
  - split; [vm_compute; discriminate|dv].
Qed.
(** This storage refuses only what does not fit. *)
Lemma small_refuses : forall s n p s', fixed_inv 256 s -> i_reserve (r_st small_storage) n s = Panic p s' -> 256 < i_pos (r_st small_storage) s + n.
Proof.
  intros s n p s' _. cbn. rewrite N.add_0_r. destruct (N.leb_spec (fx_pos s + n) 256); [discriminate|]. intros _. assumption.
Qed.

Theorem C95_witness :
  @keeps_contract demo _ (r_st small_storage) (fixed_inv 256) fx_buf true /\
  @reserve_keeps_pos demo _ (r_st small_storage) (fixed_inv 256) /\
  (forall k, @storage_for demo _ k small_storage (fixed_inv 256) fx_buf) /\
  @ready demo _ (r_st small_storage) (fixed_inv 256) (mkFixed 8 no_mem) /\
  Forall (@root_in demo no_env demo_mem 10) mixed_fates /\ Forall (@root_proper demo true) mixed_fates /\
  (forall k, match @g_session demo _ small_storage k no_env demo_mem 10 mixed_fates (g_from_storage (mkFixed 8 no_mem)) with
   | Ok outs z => outs = [(8, Some 8); (128, None); (224, None); (224, Some 224)] /\ fx_pos (gz_st z) = 240 /\
       let rd i := @read_word demo (fx_buf (gz_st z)) i in
       map rd [16; 224; 232] = [Some match k with Complete => 1048576 + 96 | PtrOffset => 96 | _ => 8192 end; Some 77; Some 55]
   | _ => False end).
Proof.
  destruct small_contract as (W1 & W2 & W3 & W4). split; [exact W1|]. split; [exact W2|]. split; [exact W3|]. split; [exact W4|].
  assert (Hs : forall l tp n, @good_layout demo l -> l_size l <= 1000 -> 0 < n <= 1000 -> tp <= 10000 -> @slice_ok demo l tp n).
  { intros l tp n H1 H2 H3 H4. unfold slice_ok. change (@imax demo) with 9223372036854775807.
    change (@umod demo) with 18446744073709551616. ands; auto; try lia; nia. }
  assert (OV : @op_valid demo (OPushSlice u64_layout 1 (bytes_src (w64 55)))) by (split; [gl|vm_compute; discriminate]).
  split; [|split].
  - assert (Hr : @root_in demo no_env demo_mem 10 (mkLayout 88 8, 4096, gc_steps)).
    { cbn [root_in]. split; [gl|]. split; [cbn; lia|]. split; [le|]. exact C89_steps_ok. }
    constructor; [exact Hr|]. constructor; [|constructor; [exact Hr|constructor; [|constructor]]].
    + cbn [root_in]. split; [gl|]. split; [cbn; lia|]. split; [le|]. constructor; [|apart|].
      * apply OK_push; [le|dv|dv|apply Hs; [gl|cbn; lia|lia|lia]|]. constructor; [|intros s' i []|constructor]. apply OK_over; [gl|cbn; lia|le|dv|dv].
      * constructor; [apply OK_panic|apart|constructor].
    + cbn [root_in]. split; [gl|]. split; [cbn; lia|]. split; [le|]. constructor; [|apart|constructor].
      apply OK_store; [exact OV|exact Logic.I|discriminate].
  - constructor; [|constructor; [|constructor; [|constructor; [|constructor]]]]; unfold root_proper; cbn [snd];
      try (apply Forall_forall; intros s Hin; repeat destruct Hin as [<-|Hin]; try contradiction; cbn [proper]; repeat split; fail).
    constructor; [|constructor]. cbn [proper]. split; [exact OV|]. split; intros l n; cbn; [intros d Hd; injection Hd as <- <- _; left; lia|discriminate].
  - intros k; destruct k; vm_compute; repeat split; reflexivity.
Qed.

(** And the Box<Wrap> of C92 five times, of which four fit. *)
Theorem C95_program_witness :
  proper_program (P := demo) true deleg_prog deleg_mem /\
  Forall (@session_input demo deleg_env deleg_mem 10) (repeat (TBox (TNamed 2), 4096, deleg_val) 5) /\
  match @g_dx_session demo _ _ small_storage deleg_prog Complete deleg_mem 10
          (map place_of (repeat (TBox (TNamed 2), 4096, deleg_val) 5)) (g_from_storage (mkFixed 8 no_mem)) with
  | Ok outs z => map snd outs = [Some 8; Some 64; Some 120; Some 176; None] /\ fx_pos (gz_st z) = 240
  | _ => False
  end.
Proof.
  destruct (@C92_hypotheses) as (_ & _ & _ & _ & [PP1 PP2] & _ & Hv & Hd & _). split; [|split].
  - split.
    + intros id h a HI. apply Forall_forall. intros s Hs. apply (plain_proper (P := demo)). specialize (PP1 id h a HI). rewrite forallb_forall in PP1. auto.
    + intros w t a. apply Forall_forall. intros s Hs. apply (plain_proper (P := demo)). specialize (PP2 w t a). rewrite forallb_forall in PP2. auto.
  - apply Forall_forall. intros x Hx. apply repeat_spec in Hx. subst x. split; [exact Hv|]. split; [vm_compute; reflexivity|exact Hd].
  - vm_compute. split; reflexivity.
Qed.
