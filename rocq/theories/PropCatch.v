(** * PropCatch: panics caught inside an implementation (C98). *)
From Coq Require Import Arith.
From Verif Require Import Base Types Storage Serializer Serialize Spec ArithFacts StorageFacts StorageHist MemFacts TypeFacts SerFacts SerMain SerValue SerRoot SerProps
  Client ClientSpec ClientFacts PropClient PropResume
  GenStorage GenSpec GenFacts PropGen GenSerializer GenSerSpec GenSerAV GenSerFacts GenSerRoot PropGenSer
  GenClient GenClientSpec GenClientFacts GenSession PropGenClient Derive DeriveSpec Mixed MixedFacts GenMixed GenMixedFacts Catch CatchFacts.
Local Open Scope N_scope.

(** Implementations that keep to the rules of [csteps_ok] (Catch.v) may catch panics themselves: over any storage, several values, each
    under catch_unwind, then finalize: no undefined behaviour, no panic gets out, what was stored before is kept, the storage
    is usable afterwards, and every value whose call returned has its image, all calls that returned having their effects,
    whatever calls panicked and were caught; and what was caught was a panic of the implementation's own, or the storage's refusal
    to make room for a call in question ([c_attempts]). *)
Theorem C98_session {P : Params} {St} (R : ra_impl St) inv contents empties :
  cfg_ok -> keeps_contract (r_st R) inv contents empties -> reserve_keeps_pos (r_st R) inv ->
  forall k E m, storage_for k R inv contents -> wf_env E ->
  forall fuel rs s, ready (r_st R) inv s -> Forall (c_root_in empties k E m fuel) rs ->
  match c_session R k E m fuel rs (g_from_storage s) with
  | Ok outs z =>
      let s' := gz_st z in
      let B := g_read_base R k s' in
      ready (r_st R) inv s' /\ i_pos (r_st R) s <= i_pos (r_st R) s' /\
      same_below (i_pos (r_st R) s) (contents s') (contents s) /\
      c_attempts k E m (fun lo hi => exists x, refused_within (r_st R) inv lo hi x) (g_out_mem (r_st R) contents B s') B
        (i_pos (r_st R) s) rs outs (i_pos (r_st R) s')
  | Abort => True
  | Panic _ _ | UB | OutOfFuel => False
  end.
Proof.
  intros C K KP k E m HS HE fuel rs s Hr Hall.
  exact (c_session_spec R C inv contents empties K KP E HE m fuel k HS rs s Hr Hall).
Qed.

(** ** Nothing is caught if nothing panics *)
(** The calls of an implementation, the catch_unwinds taken away. *)
Fixpoint uncaught (c : cstep) : list step :=
  match c with
  | CCall s => [s]
  | CPush off l tp n body => [SPush off l tp n (flat_map uncaught body)]
  | CTry _ body => flat_map uncaught body
  end.
(** No panic of the implementation's own or of a storage call it makes. *)
Fixpoint calm (c : cstep) : bool :=
  match c with
  | CCall s => negb (may_panic s)
  | CPush _ _ _ _ body | CTry _ body => forallb calm body
  end.

Lemma calm_quiet {P : Params} cs : forallb calm cs = true -> existsb c_may_panic cs = false.
Proof.
  assert (H : forall c, calm c = true -> c_may_panic c = false).
  { fix IH 1. intros [s|off l tp n body|restore body] Hc; cbn in *; [destruct (may_panic s); [discriminate|reflexivity]| |reflexivity].
    induction body as [|c cs' IHs]; [reflexivity|]. cbn in *. apply andb_prop in Hc. destruct Hc as [H1 H2].
    rewrite (IH c H1), (IHs H2). reflexivity. }
  induction cs as [|c cs IH]; intros Hc; [reflexivity|]. cbn in *. apply andb_prop in Hc. destruct Hc as [H1 H2].
  rewrite (H c H1), (IH H2). reflexivity.
Qed.

Lemma touched_uncaught {P : Params} E : forall c i, c_touched E c i <-> exists s, In s (uncaught c) /\ touched E s i.
Proof.
  fix IH 1. intros [s|off l tp n body|restore body] i.
  - cbn [c_touched uncaught]. split; [intros H; exists s; split; [left; reflexivity|exact H]|intros (s' & [<-|[]] & H); exact H].
  - cbn [c_touched uncaught]. split.
    + intros H. eexists. split; [left; reflexivity|exact H].
    + intros (s' & [<-|[]] & H). exact H.
  - cbn [c_touched uncaught]. induction body as [|c cs IHs]; [split; [intros []|intros (s & [] & _)]|]. cbn [flat_map]. split.
    + intros [H|H].
      * apply (IH c) in H. destruct H as (s & H1 & H2). exists s. split; [apply in_or_app; left; exact H1|exact H2].
      * apply IHs in H. destruct H as (s & H1 & H2). exists s. split; [apply in_or_app; right; exact H1|exact H2].
    + intros (s & Hin & H). apply in_app_or in Hin. destruct Hin as [Hin|Hin].
      * left. apply (IH c). exists s. split; [exact Hin|exact H].
      * right. apply IHs. exists s. split; [exact Hin|exact H].
Qed.

(** All calls of an implementation, those in catch_unwinds too (a push with a closure first pushes). *)
Fixpoint every (c : cstep) : list step :=
  match c with
  | CCall s => [s]
  | CPush off l tp n body => SPushPlain off l tp n :: flat_map every body
  | CTry _ body => flat_map every body
  end.
Definition root_every (r : layout * N * list cstep) : list step := let '(l, a, cs) := r in SRaw l a 1 :: flat_map every cs.
Lemma exposed_every {P : Params} cs : incl (flat_map exposed cs) (flat_map every cs).
Proof.
  assert (H : forall c, incl (exposed c) (every c)).
  { fix IH 1. intros [s|off l tp n body|restore body]; cbn [exposed every]; [apply incl_refl| |intros s []].
    apply incl_cons; [left; reflexivity|]. apply incl_tl.
    induction body as [|c cs' IHs]; [apply incl_refl|]. cbn [flat_map]. apply incl_app; [apply incl_appl, IH|apply incl_appr, IHs]. }
  induction cs as [|c cs IH]; [apply incl_refl|]. cbn [flat_map]. apply incl_app; [apply incl_appl, H|apply incl_appr, IH].
Qed.

Lemma images_app {P : Params} k E m Mo B p a : forall ss cur ss', images k E m Mo B p a cur ss ->
  images k E m Mo B p a (steps_end E cur ss) ss' -> images k E m Mo B p a cur (ss ++ ss').
Proof.
  induction ss as [|s ss IH]; intros cur ss' H H'; [exact H'|]. inversion H; subst. cbn [app]. constructor; [assumption|].
  apply IH; assumption.
Qed.

Scheme c_image_mut := Minimality for c_image Sort Prop
  with c_images_mut := Minimality for c_images Sort Prop
  with c_region_mut := Minimality for c_region Sort Prop.

Section Calm.
Context {P : Params}.
Hypothesis C : cfg_ok.
Variable empties : bool.
Variable k : kind.
Variable E : tenv.
Variable m : mem.
Variable fuel : nat.
Variable refused : N -> N -> Prop.
Variable Mo : mem.
Variable B : N.
Notation cok := (cstep_ok empties k E m fuel).
Notation csok := (csteps_ok empties k E m fuel).

Lemma step_end_later size al a s cur : step_ok E m fuel size al a s -> (VA | cur) -> cur <= step_end E cur s /\ (VA | step_end E cur s).
Proof.
  intros Hs Hc. assert (Hss : steps_ok E m fuel size al a [s]) by (constructor; [exact Hs|intros s' j []|constructor]).
  pose proof (steps_allocs_end C E m fuel size al a [s] Hss cur Hc) as H. cbn [flat_map steps_end fold_left] in H.
  rewrite <- H. split; [apply end_pos_ge; exact C|apply end_pos_VA; exact Hc].
Qed.
Lemma push_later cur l n : good_layout l -> cur <= push_end cur l n /\ (VA | push_end cur l n).
Proof.
  intros Hl. split; [|apply (push_end_VA)].
  pose proof (push_end_ge C cur l n). pose proof (push_start_ge C cur l (proj1 Hl)). lia.
Qed.
Lemma slice_end_later cur l n : good_layout l -> (VA | cur) -> cur <= slice_end cur l n /\ (VA | slice_end cur l n).
Proof.
  intros Hl Hc. unfold slice_end. destruct (l_size l =? 0); [split; [lia|exact Hc]|apply push_later; exact Hl].
Qed.

Lemma c_region_later : forall p a size cur cs e, c_region k E m refused Mo B p a size cur cs e ->
  forall size' al' a', csok size' al' a' cs -> (VA | cur) -> cur <= e /\ (VA | e).
Proof.
  apply (c_region_mut P k E m refused Mo B
    (fun _ _ cur c e => forall size' al' a', cok size' al' a' c -> (VA | cur) -> cur <= e /\ (VA | e))
    (fun _ _ cur cs e => forall size' al' a', csok size' al' a' cs -> (VA | cur) -> cur <= e /\ (VA | e))
    (fun _ _ _ cur cs e => forall size' al' a', csok size' al' a' cs -> (VA | cur) -> cur <= e /\ (VA | e))).
  - intros p a cur s _ size' al' a' Hs Hc. inversion Hs; subst. eapply step_end_later; eassumption.
  - intros p a cur off l tp n body e _ _ IH size' al' a' Hs Hc. inversion Hs; subst.
    destruct (slice_end_later cur l n) as [Y1 Y2]; [match goal with H : slice_ok l tp n |- _ => apply H end|exact Hc|].
    destruct (IH _ _ _ ltac:(eassumption) Y2) as [Y3 Y4]. split; [lia|exact Y4].
  - intros p a cur restore body e _ IH size' al' a' Hs Hc. inversion Hs; subst. eapply IH; eassumption.
  - intros p a cur restore body e _ H1 H2 size' al' a' _ _. auto.
  - intros p a cur size' al' a' _ Hc. split; [lia|exact Hc].
  - intros p a cur c cs e e' _ IH1 _ IH2 size' al' a' Hs Hc. inversion Hs; subst.
    destruct (IH1 _ _ _ ltac:(eassumption) Hc) as [Y1 Y2]. destruct (IH2 _ _ _ ltac:(eassumption) Y2) as [Y3 Y4]. split; [lia|exact Y4].
  - intros p a size cur cs e _ _ IH. exact IH.
Qed.
Lemma c_images_later p a cur cs e : c_images k E m refused Mo B p a cur cs e ->
  forall size' al' a', csok size' al' a' cs -> (VA | cur) -> cur <= e /\ (VA | e).
Proof. intros H size' al' a' Hs Hc. eapply (c_region_later p a 0); [constructor; [intros i Hi; lia|exact H]|exact Hs|exact Hc]. Qed.
Lemma c_image_later p a cur c e : c_image k E m refused Mo B p a cur c e ->
  forall size' al' a', cok size' al' a' c -> (VA | cur) -> cur <= e /\ (VA | e).
Proof.
  intros H size' al' a' Hs Hc. eapply (c_images_later p a cur [c]); [econstructor; [exact H|constructor]| |exact Hc].
  constructor; [exact Hs|intros c' i []|reflexivity|constructor].
Qed.

Definition roomy (last : N) (calls : list step) : Prop := forall s b, In s calls -> b <= last -> ~ refused b (step_end E b s).
Lemma no_hit last calls calls' lo hi : roomy last calls -> incl calls' calls -> hi <= last -> ~ hit E refused calls' lo hi.
Proof. intros HR Hi Hh (s & b & H1 & H2 & H3 & H4). apply (HR s b); [auto|lia|exact H4]. Qed.

Lemma calm_region last : forall p a size cur cs e,
  c_region k E m refused Mo B p a size cur cs e ->
  forall size' al' a', csok size' al' a' cs -> (VA | cur) -> e <= last -> roomy last (flat_map every cs) -> forallb calm cs = true ->
  region k E m Mo B p a size cur (flat_map uncaught cs) /\ e = steps_end E cur (flat_map uncaught cs).
Proof.
  apply (c_region_mut P k E m refused Mo B
    (fun p a cur c e => forall size' al' a', cok size' al' a' c -> (VA | cur) -> e <= last -> roomy last (every c) -> calm c = true ->
       images k E m Mo B p a cur (uncaught c) /\ e = steps_end E cur (uncaught c))
    (fun p a cur cs e => c_images k E m refused Mo B p a cur cs e /\
       forall size' al' a', csok size' al' a' cs -> (VA | cur) -> e <= last -> roomy last (flat_map every cs) -> forallb calm cs = true ->
       images k E m Mo B p a cur (flat_map uncaught cs) /\ e = steps_end E cur (flat_map uncaught cs))
    (fun p a size cur cs e => forall size' al' a', csok size' al' a' cs -> (VA | cur) -> e <= last -> roomy last (flat_map every cs) -> forallb calm cs = true ->
       region k E m Mo B p a size cur (flat_map uncaught cs) /\ e = steps_end E cur (flat_map uncaught cs))).
  - intros p a cur s Hi size' al' a' _ _ _ _ _. cbn [uncaught]. split; [|reflexivity]. constructor; [exact Hi|constructor].
  - intros p a cur off l tp n body e Hp _ IH size' al' a' Hs Hc He HR Hm. cbn [calm every] in *. inversion Hs; subst.
    destruct (slice_end_later cur l n) as [Y1 Y2]; [match goal with H : slice_ok l tp n |- _ => apply H end|exact Hc|].
    destruct (IH _ _ _ ltac:(eassumption) Y2 He ltac:(intros s b Hin; apply HR; right; exact Hin) Hm) as [Y3 Y4]. cbn [uncaught]. split.
    + constructor; [|constructor]. constructor; assumption.
    + exact Y4.
  - intros p a cur restore body e _ [_ IH] size' al' a' Hs Hc He HR Hm. inversion Hs; subst. eapply IH; eassumption.
  - intros p a cur restore body e [Hp|Hp] _ _ size' al' a' _ _ He HR Hm; exfalso.
    + cbn [calm] in Hm. rewrite (calm_quiet body Hm) in Hp. discriminate.
    + eapply no_hit; [exact HR|apply exposed_every|exact He|exact Hp].
  - intros p a cur. split; [constructor|]. intros size' al' a' _ _ _ _ _. split; [constructor|reflexivity].
  - intros p a cur c cs e e' H1 IH1 H2 [_ IH2]. split; [econstructor; eassumption|].
    intros size' al' a' Hs Hc He HR Hm. cbn [forallb flat_map] in *. apply andb_prop in Hm. destruct Hm as [Hm1 Hm2].
    assert (R1 : roomy last (every c)) by (intros s b Hin; apply HR; apply in_or_app; left; exact Hin).
    assert (R2 : roomy last (flat_map every cs)) by (intros s b Hin; apply HR; apply in_or_app; right; exact Hin).
    inversion Hs as [|? ? ? ? ? Hok1 _ _ Hok2]; subst.
    destruct (c_image_later _ _ _ _ _ H1 _ _ _ Hok1 Hc) as [L1 L2]. destruct (c_images_later _ _ _ _ _ H2 _ _ _ Hok2 L2) as [L3 L4].
    destruct (IH1 _ _ _ Hok1 Hc ltac:(lia) R1 Hm1) as [A1 ->]. destruct (IH2 _ _ _ Hok2 L2 He R2 Hm2) as [B1 ->].
    split; [apply images_app; assumption|]. unfold steps_end. rewrite fold_left_app. reflexivity.
  - intros p a size cur cs e Hk _ [_ IH] size' al' a' Hs Hc He HR Hm. destruct (IH _ _ _ Hs Hc He HR Hm) as [H1 H2].
    split; [|exact H2]. constructor; [|exact H1].
    intros i Hi Hno. apply Hk; [exact Hi|]. intros c Hin Ht. apply touched_uncaught in Ht. destruct Ht as (s & Hs1 & Ht).
    apply (Hno s); [|exact Ht]. apply in_flat_map. eauto.
Qed.

Lemma c_attempts_later b rs outs e : c_attempts k E m refused Mo B b rs outs e -> b <= e.
Proof. induction 1; lia. Qed.

Definition without (r : layout * N * list cstep) : layout * N * list step := let '(l, a, cs) := r in (l, a, flat_map uncaught cs).

(** If no implementation panics and the storage has room for every call, wherever it is made up to the end of the session, catching makes no
    difference: all values are there, one after the other, as of the implementations without it. *)
Theorem C98_nothing_to_catch b rs outs e :
  c_attempts k E m refused Mo B b rs outs e ->
  Forall (c_root_in empties k E m fuel) rs -> (VA | b) ->
  Forall (fun r => forallb calm (snd r) = true) rs ->
  (forall r s q, In r rs -> In s (root_every r) -> q <= e -> ~ refused q (step_end E q s)) ->
  map snd outs = map Some (roots_pos E b (map without rs)) /\ e = roots_end E b (map without rs) /\ regions k E m Mo B b (map without rs).
Proof.
  intros HA. induction HA as [b|b l a cs rs outs b' e H1 H2 H3 IH|b l a cs rs outs e b' H1 H2 H2' H3 IH]; intros HI Hb HN HR.
  - cbn. auto.
  - inversion HN as [|? ? HP HN']; subst. inversion HI as [|? ? HQ HI']; subst. cbn [snd] in HP. destruct HQ as (Q1 & Q2 & Q3 & Q4).
    pose proof (c_attempts_later _ _ _ _ H3) as Hbe.
    destruct (push_later b l 1 Q1) as [L1 L2].
    destruct (c_region_later _ _ _ _ _ _ H1 _ _ _ Q4 L2) as [L3 L4].
    destruct (calm_region e _ _ _ _ _ _ H1 _ _ _ Q4 L2 Hbe
                ltac:(intros s q Hin Hq; apply (HR (l, a, cs) s q); [left; reflexivity|right; exact Hin|exact Hq]) HP) as [A1 A2].
    destruct (IH HI' L4 HN' ltac:(intros r s q Hin; apply HR; right; exact Hin)) as (J1 & J2 & J3).
    cbn [map snd without roots_pos roots_end regions]. rewrite J1. rewrite A2 in *. auto.
  - exfalso. inversion HN as [|? ? HP _]; subst. cbn [snd] in HP. rewrite (calm_quiet cs HP) in H1.
    pose proof (c_attempts_later _ _ _ _ H3) as Hbe.
    destruct H1 as [H1|(s & q & X1 & X2 & X3 & X4)]; [discriminate|].
    apply (HR (l, a, cs) s q); [left; reflexivity| |lia|exact X4].
    cbn [root_exposed root_every] in *. destruct X1 as [<-|X1]; [left; reflexivity|right; apply exposed_every; exact X1].
Qed.
End Calm.

(** A storage that grows to a given capacity and no further, and a session that does not come near it. *)
Theorem C98_room {P : Params} {St} (I : storage_impl St) (inv : St -> Prop) (room : N) :
  (forall s n p s', inv s -> i_reserve I n s = Panic p s' -> room < i_pos I s + n) ->
  forall E rs e,
  (forall r s q, In r rs -> In s (root_every r) -> q <= e -> step_end E q s <= room) ->
  forall r s q, In r rs -> In s (root_every r) -> q <= e -> ~ exists x, refused_within I inv q (step_end E q s) x.
Proof.
  intros HR E rs e HE r s q H1 H2 H3 (x & w & n & w' & I1 & I2 & I3 & I4).
  pose proof (HE r s q H1 H2 H3). pose proof (HR _ _ _ _ I1 I4). lia.
Qed.

(** Implementations that catch nothing: the code and the rules of C95. *)
Section Same.
Context {P : Params}.
Context {St : Type}.
Variable R : ra_impl St.
Variable empties : bool.
Variable k : kind.
Variable E : tenv.
Variable m : mem.
Variable fuel : nat.
Definition catching (r : layout * N * list step) : layout * N * list cstep := let '(l, a, ss) := r in (l, a, map CCall ss).

Lemma c_run_calls a : forall ss z, c_run_steps R k E m fuel a (map CCall ss) z = g_run_steps R k E m fuel a ss z.
Proof.
  induction ss as [|s ss IH]; intros z; [reflexivity|]. cbn [map c_run_steps g_run_steps c_run_step]. unfold bind.
  destruct (g_run_step R k E m fuel a s z); auto.
Qed.
Theorem C98_catching_nothing rs : forall z, c_session R k E m fuel (map catching rs) z = g_session R k E m fuel rs z.
Proof.
  assert (H : forall z, c_attempt_all R k E m fuel (map catching rs) z = g_attempt_all R k E m fuel rs z).
  { induction rs as [|[[l a] ss] rs' IH]; intros z; [reflexivity|]. cbn [map catching c_attempt_all g_attempt_all].
    apply (geq_bind _ _ _ _ (geq_refl _)). intros b. apply geq_bind; [|intros r; apply geq_bind; [exact IH|intros; apply geq_refl]].
    intros z1. unfold g_catch. rewrite (geq_svw R k (slice_at m l a 1) _ _ (c_run_calls a ss) z1). reflexivity. }
  intros z. unfold c_session, g_session. apply geq_bind; [exact H|intros; apply geq_refl].
Qed.
Theorem C98_rules_of_calls r : root_in E m fuel r -> root_proper empties r -> c_root_in empties k E m fuel (catching r).
Proof.
  destruct r as [[l a] ss]. intros (X1 & X2 & X3 & X4) Hp. unfold root_proper in Hp. cbn [snd] in Hp. cbn [catching c_root_in].
  ands; auto. clear X1 X2 X3. induction ss as [|s ss IH]; [constructor|]. inversion X4; subst. inversion Hp; subst.
  cbn [map]. constructor; auto.
  - constructor; assumption.
  - intros c' i Hin. apply in_map_iff in Hin. destruct Hin as (s' & <- & Hin). cbn. auto.
  - discriminate.
Qed.
End Same.

(** ** The rule about restoring the mapping is needed *)
From Verif Require Import PropStorage PropSerialize Demo WitnessSerialize PropGenSession.
Local Open Scope N_scope.

(** A struct of four words, its implementation: push what the first word points to, catching a panic; then push what the
    second points to, at its own address. *)
Definition lost (other : N) (restore : bool) : list cstep :=
  [CTry restore [CPush 0 u64_layout other 1 [CCall SPanic]]; CCall (SPushPlain 8 u64_layout 8192 1)].
Definition word_of (m : mem) (a : N) : option N := @read_word demo m a.
(** What comes out of a session over AlignedVec. *)
Definition lost_session (P : Params) (k : kind) (restore : bool) : option (list (option N)) :=
  match @c_session P _ (aligned_vec_ra (P := P)) k no_env demo_mem 10 [(mkLayout 32 8, 4096, lost 8192 restore)] (g_from_storage demo_w) with
  | Ok outs _ => Some (map snd outs)
  | _ => None
  end.

Lemma slice_okd l tp n : @good_layout demo l -> l_size l <= 1000 -> n <= 1000 -> tp <= 10000 -> @slice_ok demo l tp n.
Proof.
  intros H1 H2 H3 H4. unfold slice_ok. change (@imax demo) with 9223372036854775807.
  change (@umod demo) with 18446744073709551616. ands; auto; try lia; nia.
Qed.

(** Each of the calls keeps to the rules and no two are for overlapping places: only the mapping is not restored.  With a pointer-writing
    serializer the session then has undefined behaviour in a release build, from safe code (in a debug build the second push
    panics, on arithmetic overflow).  With the other slice at another address nothing panics, in a debug build either, but
    the second pointer is written over the value it should point to, and the second word is the input's.  With the
    mapping restored both are right. *)
Theorem C98_mapping_lost :
  (forall k other restore c, other <= 10000 -> In c (lost other restore) -> @cstep_ok demo true k no_env demo_mem 10 32 8 4096 c) /\
  (forall other restore i, @c_touched demo no_env (nth 0 (lost other restore) (CCall SPanic)) i ->
     ~ @c_touched demo no_env (nth 1 (lost other restore) (CCall SPanic)) i) /\
  (forall k, tracking k = true ->
     @c_session demo_release _ (aligned_vec_ra (P := demo_release)) k no_env demo_mem 10 [(mkLayout 32 8, 4096, lost 8192 false)] (g_from_storage demo_w) = UB /\
     lost_session demo k false = Some [None] /\ lost_session demo k true = Some [Some 0] /\ lost_session demo_release k true = Some [Some 0]) /\
  (forall restore, match @c_session demo _ small_storage PtrOffset no_env demo_mem 10 [(mkLayout 32 8, 4096, lost 4096 restore)] (g_from_storage (mkFixed 8 no_mem)) with
   | Ok outs z => outs = [(8, Some 8)] /\
       map (word_of (fx_buf (gz_st z))) [8; 16; 48] = if restore then [Some 40; Some 48; Some 77] else [Some 40; Some 8192; Some 48]
   | _ => False
   end) /\
  map (word_of demo_mem) [4104; 8192] = [Some 8192; Some 77].
Proof.
  split; [|split; [|split; [|split]]].
  - intros k other restore c Ho [<-|[<-|[]]].
    + apply CO_try. constructor; [|intros c' i []|reflexivity|constructor].
      apply CO_push; [le|dv|dv|apply slice_okd; [gl|cbn; lia|lia|exact Ho]|reflexivity|].
      constructor; [|intros c' i []|reflexivity|constructor]. apply CO_call; [apply OK_panic|exact Logic.I].
    + apply CO_call; [|reflexivity]. apply OK_plain; [le|dv|dv|apply slice_okd; [gl|cbn; lia|lia|lia]].
  - intros other restore i. unfold lost. cbn. unfold touched. cbn. intros [H|[]]. lia.
  - intros k Hk. destruct k; try discriminate; vm_compute; repeat split; reflexivity.
  - intros [|]; vm_compute; split; reflexivity.
  - reflexivity.
Qed.

(** ** A buffer of 256 bytes again: an implementation that catches three panics, restoring the mapping when it goes on to push; one
    that tries to store 300 bytes and does without; one that panics; and the first again, for which there is no more room. *)
Definition own : cstep := CCall (SStore (OPushSlice u64_layout 1 (bytes_src (w64 55)))).
Definition careful : list cstep :=
  [CTry true [CPush 8 u64_layout 8192 1 [CCall (SOver 0 u64_layout (bytes_src (w64 99))); CCall SPanic]];
   CPush 24 (mkLayout 2 2) 8208 2 [CTry false [own; CCall SPanic]];
   CTry false [CPush 40 u8_layout 8224 2 [CCall SPanic]];
   CCall (SRaw u64_layout 8192 1)].
Definition too_big : list cstep := [CTry false [CCall (SRaw u8_layout 8192 300)]; own].
Definition catches : list (layout * N * list cstep) :=
  [(mkLayout 88 8, 4096, careful); (u64_layout, 8192, too_big); (u64_layout, 8192, [own; CCall SPanic]); (mkLayout 88 8, 4096, careful)].

Theorem C98_witness :
  @keeps_contract demo _ (r_st small_storage) (fixed_inv 256) fx_buf true /\
  @reserve_keeps_pos demo _ (r_st small_storage) (fixed_inv 256) /\
  (forall k, @storage_for demo _ k small_storage (fixed_inv 256) fx_buf) /\
  @ready demo _ (r_st small_storage) (fixed_inv 256) (mkFixed 8 no_mem) /\
  (forall k, Forall (@c_root_in demo true k no_env demo_mem 10) catches) /\
  (forall k, match @c_session demo _ small_storage k no_env demo_mem 10 catches (g_from_storage (mkFixed 8 no_mem)) with
   | Ok outs z => outs = [(8, Some 8); (136, Some 136); (152, None); (168, None)] /\ fx_pos (gz_st z) = 256 /\
       map (word_of (fx_buf (gz_st z))) [16; 32; 48; 96; 128; 136; 144] =
         match k with
         | Complete => [Some (1048576 + 96); Some (1048576 + 104); Some (1048576 + 120); Some 99; Some 77; Some 77; Some 55]
         | PtrOffset => [Some 96; Some 104; Some 120; Some 77; Some 77; Some 77; Some 55]
         | _ => [Some 8192; Some 8208; Some 8224; Some 77; Some 77; Some 77; Some 55]
         end
   | _ => False end).
Proof.
  destruct small_contract as (W1 & W2 & W3 & W4). split; [exact W1|]. split; [exact W2|]. split; [exact W3|]. split; [exact W4|].
  assert (Hown : forall k size al a, @cstep_ok demo true k no_env demo_mem 10 size al a own).
  { intros k size al a. assert (OV : @op_valid demo (OPushSlice u64_layout 1 (bytes_src (w64 55)))) by (split; [gl|vm_compute; discriminate]).
    apply CO_call; [apply OK_store; [exact OV|exact Logic.I|discriminate]|]. cbn [proper]. split; [exact OV|].
    split; intros l n; cbn; [intros d Hd; injection Hd as <- <- _; left; lia|discriminate]. }
  assert (Hpanic : forall k size al a, @cstep_ok demo true k no_env demo_mem 10 size al a (CCall SPanic)).
  { intros. apply CO_call; [apply OK_panic|exact Logic.I]. }
  assert (Hnil : forall k size al a, @csteps_ok demo true k no_env demo_mem 10 size al a []) by (intros; constructor).
  assert (Hone : forall k size al a c, @cstep_ok demo true k no_env demo_mem 10 size al a c -> @csteps_ok demo true k no_env demo_mem 10 size al a [c]).
  { intros k size al a c H. constructor; [exact H|intros c' i []|reflexivity|constructor]. }
  assert (Htwo : forall k size al a c d, @cstep_ok demo true k no_env demo_mem 10 size al a c -> @cstep_ok demo true k no_env demo_mem 10 size al a d ->
    (forall i, ~ @c_touched demo no_env d i) -> unsettles c = false -> @csteps_ok demo true k no_env demo_mem 10 size al a [c; d]).
  { intros k size al a c d H1 H2 H3 H4. constructor; [exact H1|intros c' i [<-|[]] _; apply H3|rewrite H4; discriminate|apply Hone; exact H2]. }
  assert (Hnt : forall s, @touch demo no_env s = None -> forall i, ~ @c_touched demo no_env (CCall s) i).
  { intros s Hs i. cbn. unfold touched. rewrite Hs. intros []. }
  assert (Hcareful : forall k, @csteps_ok demo true k no_env demo_mem 10 88 8 4096 careful).
  { intros k. constructor; [| |discriminate|constructor; [| |discriminate|constructor; [| |reflexivity|apply Hone]]].
    - apply CO_try, Hone, CO_push; [le|dv|dv|apply slice_okd; [gl|cbn; lia|lia|lia]|reflexivity|].
      apply Htwo; [|apply Hpanic|apply Hnt; reflexivity|reflexivity].
      apply CO_call; [|exact Logic.I]. apply OK_over; [gl|cbn; lia|le|dv|dv].
    - intros c' i [<-|[<-|[<-|[]]]]; cbn; unfold touched; cbn; lia.
    - apply CO_push; [le|dv|dv|apply slice_okd; [gl|cbn; lia|lia|lia]|reflexivity|]. apply Hone, CO_try.
      apply Htwo; [apply Hown|apply Hpanic|apply Hnt; reflexivity|reflexivity].
    - intros c' i [<-|[<-|[]]]; cbn; unfold touched; cbn; lia.
    - apply CO_try, Hone, CO_push; [le|dv|dv|apply slice_okd; [gl|cbn; lia|lia|lia]|reflexivity|]. apply Hone, Hpanic.
    - intros c' i [<-|[]]; cbn; unfold touched; cbn; lia.
    - apply CO_call; [|reflexivity]. apply OK_raw. apply slice_okd; [gl|cbn; lia|lia|lia]. }
  assert (Hbig : forall k a, @csteps_ok demo true k no_env demo_mem 10 8 8 a too_big).
  { intros k a. apply Htwo; [|apply Hown|apply Hnt; reflexivity|reflexivity]. apply CO_try, Hone, CO_call; [|reflexivity].
    apply OK_raw. apply slice_okd; [gl|cbn; lia|lia|lia]. }
  split.
  - intros k. assert (H1 : @c_root_in demo true k no_env demo_mem 10 (mkLayout 88 8, 4096, careful)).
    { cbn [c_root_in]. split; [gl|]. split; [cbn; lia|]. split; [le|]. apply Hcareful. }
    constructor; [exact H1|]. constructor; [|constructor; [|constructor; [exact H1|constructor]]].
    + cbn [c_root_in]. split; [gl|]. split; [cbn; lia|]. split; [le|]. apply Hbig.
    + cbn [c_root_in]. split; [gl|]. split; [cbn; lia|]. split; [le|]. apply Htwo; [apply Hown|apply Hpanic|apply Hnt; reflexivity|reflexivity].
  - intros k; destruct k; vm_compute; repeat split; reflexivity.
Qed.

(** And a session in which nothing is there to be caught: the hypotheses of [C98_nothing_to_catch] and [C98_room]. *)
Definition calmly : list cstep :=
  [CTry true [CPush 8 u64_layout 8192 1 [CCall (SOver 0 u64_layout (bytes_src (w64 99)))]]; CTry false [CCall (SRaw u64_layout 8192 2)]].
Definition calm_rs : list (layout * N * list cstep) := [(mkLayout 32 8, 4096, calmly); (mkLayout 32 8, 4096, calmly)].
Theorem C98_room_witness :
  (forall s n p s', fixed_inv 256 s -> i_reserve (r_st small_storage) n s = Panic p s' -> 256 < i_pos (r_st small_storage) s + n) /\
  (forall k, Forall (@c_root_in demo true k no_env demo_mem 10) calm_rs) /\
  (@VA demo | 8) /\ Forall (fun r => forallb calm (snd r) = true) calm_rs /\
  (forall k, match @c_session demo _ small_storage k no_env demo_mem 10 calm_rs (g_from_storage (mkFixed 8 no_mem)) with
   | Ok outs z => outs = [(8, Some 8); (64, Some 64)] /\ fx_pos (gz_st z) = 120
   | _ => False end) /\
  (forall r s q, In r calm_rs -> In s (root_every r) -> q <= 120 -> @step_end demo no_env q s <= 256).
Proof.
  split; [|split; [|split; [|split; [|split]]]].
  - intros s n p s' Hi H. cbn in *. destruct (N.leb_spec (fx_pos s + 0 + n) 256) as [Hle|Hlt]; [discriminate|lia].
  - intros k. assert (H : @c_root_in demo true k no_env demo_mem 10 (mkLayout 32 8, 4096, calmly)).
    { cbn [c_root_in]. split; [gl|]. split; [cbn; lia|]. split; [le|]. unfold calmly.
      constructor; [|intros c' i [<-|[]] _ X; cbn in X; unfold touched in X; cbn in X; tauto|discriminate|].
      - apply CO_try. constructor; [|intros c' i []|discriminate|constructor].
        apply CO_push; [le|dv|dv|apply slice_okd; [gl|cbn; lia|lia|lia]|reflexivity|].
        constructor; [|intros c' i []|discriminate|constructor]. apply CO_call; [|exact Logic.I]. apply OK_over; [gl|cbn; lia|le|dv|dv].
      - constructor; [|intros c' i []|reflexivity|constructor].
        apply CO_try. constructor; [|intros c' i []|discriminate|constructor]. apply CO_call; [|reflexivity].
        apply OK_raw. apply slice_okd; [gl|cbn; lia|lia|lia]. }
    constructor; [exact H|]. constructor; [exact H|constructor].
  - exists 1. reflexivity.
  - repeat constructor.
  - intros k; destruct k; vm_compute; split; reflexivity.
  - intros r s q Hr Hs Hq.
    assert (H : forallb (fun q => forallb (fun r => forallb (fun s => @step_end demo no_env q s <=? 256) (root_every r)) calm_rs)
                        (map N.of_nat (seq 0 121)) = true) by (vm_compute; reflexivity).
    rewrite forallb_forall in H. specialize (H q). rewrite forallb_forall in H.
    assert (Hin : In q (map N.of_nat (seq 0 121))).
    { apply in_map_iff. exists (N.to_nat q). split; [apply N2Nat.id|]. apply in_seq. lia. }
    specialize (H Hin r Hr). rewrite forallb_forall in H. specialize (H s Hs). apply N.leb_le. exact H.
Qed.
