(** * PropGenerations: outputs of whole programs serialized again, any number of times (C100). *)
From Coq Require Import Arith.
From Verif Require Import Base Types Storage Serializer Serialize Client Spec ClientSpec ArithFacts StorageFacts StorageHist MemFacts TypeFacts SerMain SerRoot SerProps
  ClientFacts PropClient PropResume Derive DeriveSpec Mixed MixedFacts PropMixed MixedValid PropMixedValue PropMixedSession
  GenStorage GenSpec GenFacts PropGen GenSerializer GenSerSpec GenSerAV GenSerRoot PropGenSer
  GenClient GenClientSpec GenClientFacts PropGenClient GenMixed GenMixedFacts PropLoad Relocate PropRelocate Deleg DelegFacts DelegValid PropDeleg
  Nest NestFacts PropNest.
From Coq Require Import ZifyBool ZifyNat ZifyN.
Local Open Scope N_scope.

Section Gen.
Context {P : Params} {L : Lexer} {St : Type}.
Variable R : ra_impl St.
Variable inv : St -> Prop.
Variable contents : St -> mem.
Variable empties : bool.
Variable pg : program.
Variable by_hand : nat -> val -> val -> Prop.
Variable by_proxy : path -> ty -> val -> val -> Prop.
Variable k : kind.
Notation E := (pr_env pg).

(** What lies at these places in memory [m]. *)
Definition holds (m : mem) (x : ty * N * val) : Prop :=
  let '(t, a, v) := x in valid_input E any_header m t a v /\ 0 < size_of E t.
(** The same values' places in an output at address [B]: what serialize_value returned. *)
Definition places (B : N) (xs : list (ty * N)) (ps : list N) : list (ty * N) := map (fun '((t, _), p) => (t, B + p)) (combine xs ps).
(** The calls of the impls of the value at a place (Deleg.v). *)
Definition calls_at (m : mem) (f : nat) (x : ty * N) (r : layout * N * list step) : Prop :=
  let (t, a) := x in let '(l, a', ss) := r in l = layout_of E t /\ a' = a /\ calls pg m f t a = Some ss.

(** From one memory to the next: what lies at [xs] in [m] is serialized on some storage (serializer.rs:260-269, :491), and the next memory
    has the output, be it that of a Complete serializer where it was made, or at another address with the pointer words
    adjusted (C91). *)
Inductive generation (m : mem) (xs : list (ty * N)) : mem -> list (ty * N) -> Prop :=
| G_in_place f s ps z m' : k = Complete ->
    ready (r_st R) inv s -> g_dx_all R pg k m f xs (g_from_storage s) = Ok ps z ->
    let B := r_as_ptr R (gz_st z) in
    (forall i, i < i_pos (r_st R) (gz_st z) -> m' (B + i) = contents (gz_st z) i) ->
    generation m xs m' (places B xs ps)
| G_moved f s ps z m' B' g rs :
    ready (r_st R) inv s -> g_dx_all R pg k m f xs (g_from_storage s) = Ok ps z ->
    let B := g_read_base R k (gz_st z) in
    let len := i_pos (r_st R) (gz_st z) in
    0 < B' -> (MVA | B') -> B' + len <= umod ->
    Forall2 (calls_at m g) xs rs ->
    moved_to (g_out_mem (r_st R) contents B (gz_st z)) B m' B' len (roots_words E (i_pos (r_st R) s) rs) ->
    generation m xs m' (places B' xs ps).
Inductive generations : nat -> mem -> list (ty * N) -> mem -> list (ty * N) -> Prop :=
| Gs_0 m xs : generations 0 m xs m xs
| Gs_S n m xs m1 xs1 m2 xs2 : generations n m xs m1 xs1 -> generation m1 xs1 m2 xs2 -> generations (S n) m xs m2 xs2.

(** What becomes of a value in [n] generations. *)
Inductive turned (t : ty) (v : val) : nat -> val -> Prop :=
| Td_0 : turned t v 0 v
| Td_S n v1 v2 : turned t v n v1 -> turns pg by_hand by_proxy t v1 v2 -> turned t v (S n) v2.
Definition becomes (n : nat) (x y : ty * N * val) : Prop := fst (fst x) = fst (fst y) /\ turned (fst (fst x)) (snd x) n (snd y).

(** The rules for hand-written impls, in every memory. *)
Definition rules : Prop := forall m, delegates_well pg m /\ plain_program pg m /\ all_attain pg by_hand by_proxy k m.

Section Facts.
Hypothesis C : cfg_ok.
Hypothesis K : keeps_contract (r_st R) inv contents empties.
Hypothesis KP : reserve_keeps_pos (r_st R) inv.
Hypothesis HS : storage_for k R inv contents.
Hypothesis LO : lexer_ok.
Hypothesis HE : wf_env E.
Hypothesis PO : program_ok pg.
Hypothesis HT : tracking k = true.
Hypothesis HR : rules.

Lemma turns_weaken : (forall id v v', by_hand id v v' -> v = v') -> (forall w t v v', by_proxy w t v v' -> v = v') ->
  (forall t v v', turns pg by_hand by_proxy t v v' -> turns pg (fun _ => eq) (fun _ _ => eq) t v v') /\
  (forall t v v', turns_all pg by_hand by_proxy t v v' -> turns_all pg (fun _ => eq) (fun _ _ => eq) t v v') /\
  (forall fs cs v v', turns_fields pg by_hand by_proxy fs cs v v' -> turns_fields pg (fun _ => eq) (fun _ _ => eq) fs cs v v').
Proof.
  intros B1 B2. apply (turns_mind pg by_hand by_proxy
    (fun t v v' _ => turns pg (fun _ => eq) (fun _ _ => eq) t v v') (fun t v v' _ => turns_all pg (fun _ => eq) (fun _ _ => eq) t v v')
    (fun fs cs v v' _ => turns_fields pg (fun _ => eq) (fun _ _ => eq) fs cs v v')); intros; try (econstructor; eauto; fail).
Qed.
Lemma turns_twice : (forall id v v1 v2, by_hand id v v1 -> by_hand id v1 v2 -> v2 = v1) -> (forall w t v v1 v2, by_proxy w t v v1 -> by_proxy w t v1 v2 -> v2 = v1) ->
  (forall t v v1, turns pg by_hand by_proxy t v v1 -> forall v2, turns pg by_hand by_proxy t v1 v2 -> v2 = v1) /\
  (forall t v v1, turns_all pg by_hand by_proxy t v v1 -> forall v2, turns_all pg by_hand by_proxy t v1 v2 -> v2 = v1) /\
  (forall fs cs v v1, turns_fields pg by_hand by_proxy fs cs v v1 -> forall v2, turns_fields pg by_hand by_proxy fs cs v1 v2 -> v2 = v1).
Proof.
  intros B1 B2. apply (turns_mind pg by_hand by_proxy
    (fun t v v1 _ => forall v2, turns pg by_hand by_proxy t v1 v2 -> v2 = v1) (fun t v v1 _ => forall v2, turns_all pg by_hand by_proxy t v1 v2 -> v2 = v1)
    (fun fs cs v v1 _ => forall v2, turns_fields pg by_hand by_proxy fs cs v1 v2 -> v2 = v1)).
  all: intros; match goal with
    | H : turns _ _ _ _ _ ?x |- ?x = _ => inversion H; subst
    | H : turns_all _ _ _ _ _ ?x |- ?x = _ => inversion H; subst
    | H : turns_fields _ _ _ _ _ _ ?x |- ?x = _ => inversion H; subst end; try congruence; try reflexivity.
  all: try (f_equal; eauto; fail).
  - match goal with H : nth_error vss j = Some ?x |- _ => first [constr_eq x fs; fail 1|rewrite e in H; injection H as <-] end. f_equal. auto.
  - rewrite e in *. match goal with H : IDerived i = IDerived ?x |- _ => injection H as <- end.
    match goal with H : E id = Some (TStruct ?l0 ?f0) |- _ => first [constr_eq f0 fs; fail 1|rewrite e0 in H; injection H as <- <-] end.
    match goal with H : i_data i = DStruct ?d0 |- _ => first [constr_eq d0 dfs; fail 1|rewrite e1 in H; injection H as <-] end.
    match goal with H : Forall2 wanted (field_list dfs) ?c0 |- _ => first [constr_eq c0 cs; fail 1|assert (cs = c0) as <- by (eapply (wanted_unique pg LO PO); eassumption)] end.
    f_equal. auto.
  - match goal with H : E id = Some (TEnum _ _ ?v0) |- _ => first [constr_eq v0 vss; fail 1|rewrite e0 in H; injection H as <- <- <-] end.
    match goal with H : nth_error vss j = Some ?x |- _ => first [constr_eq x fs; fail 1|rewrite e1 in H; injection H as <-] end. f_equal. auto.
Qed.
Lemma forall2_imp {A B} (Q1 Q2 : A -> B -> Prop) xs ys : (forall x y, Q1 x y -> Q2 x y) -> Forall2 Q1 xs ys -> Forall2 Q2 xs ys.
Proof. intros H. induction 1; constructor; auto. Qed.
Lemma svw_data kk root d z p z1 : g_serialize_value_with R kk root d z = Ok p z1 -> exists z2 u z3, d z2 = Ok u z3.
Proof.
  unfold g_serialize_value_with. intros H. destruct kk; unfold bind in H.
  all: destruct (g_push_raw_slice R root z) as [q z4| | | |]; try discriminate.
  all: try (destruct (g_set_map _ z4) as [u4 z5| | | |]; try discriminate).
  - destruct (d z4) as [u z6| | | |] eqn:E3; try discriminate. eauto.
  - destruct (d z5) as [u z6| | | |] eqn:E3; try discriminate. eauto.
  - destruct (d z5) as [u z6| | | |] eqn:E3; try discriminate. eauto.
  - destruct (d z5) as [u z6| | | |] eqn:E3; try discriminate. eauto.
Qed.
Lemma all_nested m f : forall xs z ps z', g_dx_values R pg k m f xs z = Ok ps z' -> Forall (nested pg m f) xs.
Proof.
  induction xs as [|[t a] xs IH]; intros z ps z' H; [constructor|]. cbn [g_dx_values] in H. unfold bind in H at 1.
  destruct (g_serialize_value_with _ _ _ _ z) as [p z1| | | |] eqn:E1; try discriminate. unfold bind in H.
  destruct (g_dx_values R pg k m f xs z1) as [qs z2| | | |] eqn:E2; try discriminate.
  constructor; [|exact (IH _ _ _ E2)]. destruct (svw_data k (slice_at m (layout_of E t) a 1) _ z p z1 E1) as (y2 & u & y3 & E3).
  exact (C99_needed R pg k m f t a y2 u y3 E3).
Qed.
Lemma all_more m f xs z ps z' f' : (f <= f')%nat -> g_dx_all R pg k m f xs z = Ok ps z' -> g_dx_all R pg k m f' xs z = Ok ps z'.
Proof.
  intros Hf H. unfold g_dx_all in H |- *. unfold bind in H at 1. destruct (g_dx_values R pg k m f xs z) as [qs z1| | | |] eqn:E1; try discriminate.
  pose proof (proj1 (same_values R k pg m f xs (all_nested m f xs z qs z1 E1) f' Hf z)) as Q. unfold bind at 1. rewrite Q, E1. exact H.
Qed.
Lemma calls_at_fun m f f' xs : forall vs rs rs', map fst vs = xs -> (f' <= f)%nat -> Forall2 (dx_calls_of pg m f) vs rs -> Forall2 (calls_at m f') xs rs' -> rs' = rs.
Proof.
  induction xs as [|[t a] xs IH]; intros vs rs rs' Hm Hf H1 H2.
  - destruct vs; [|discriminate]. inversion H1; inversion H2; subst. reflexivity.
  - destruct vs as [|[[t1 a1] v1] vs]; [discriminate|]. cbn in Hm. injection Hm as -> -> Hm.
    inversion H1 as [|? [[l b] ss] ? rs1 K1 K2]; subst. inversion H2 as [|? [[l' b'] ss'] ? rs1' K1' K2']; subst.
    destruct K1 as (-> & -> & K1). destruct K1' as (-> & -> & K1'). pose proof (calls_mono pg m f' f Hf t a ss' K1') as Q. rewrite Q in K1. injection K1 as <-.
    f_equal. eapply IH; eauto.
Qed.
Lemma fuel_for : forall xs, exists f : nat, Forall (fun x : ty * N * val => (vdepth (snd x) < f)%nat) xs.
Proof.
  induction xs as [|x xs [f IH]]; [exists O; constructor|]. exists (Nat.max f (S (vdepth (snd x)))).
  constructor; [lia|]. eapply Forall_impl; [|exact IH]. intros y Hy. cbn beta in *. lia.
Qed.
Lemma roots_inside m : forall xs rs cur, Forall (root_in E m 0) rs -> Forall2 (fun (x : ty * N * val) (r : layout * N * list step) => fst (fst r) = layout_of E (fst (fst x))) xs rs ->
  Forall2 (fun (x : ty * N * val) p => p + size_of E (fst (fst x)) <= roots_end E cur rs) xs (roots_pos E cur rs).
Proof.
  intros xs rs cur Hr H. revert cur. induction H as [|[[t a] v] [[l b] ss] xs rs K1 K2 IH]; intros cur; cbn [roots_pos roots_end]; [constructor|].
  inversion Hr as [|? ? R1 R2]; subst. cbn [fst snd] in K1. subst l. constructor; [|exact (IH R2 _)]. cbn [fst snd].
  destruct R1 as (Q1 & Q2 & Q3 & Q4). pose proof (push_end_ge C cur (layout_of E t) 1).
  pose proof (steps_end_ge C E m 0 _ _ _ _ (push_end cur (layout_of E t) 1) Q4 (push_end_VA cur (layout_of E t) 1)).
  pose proof (roots_end_ge C E m 0 rs R2 (steps_end E (push_end cur (layout_of E t) 1) ss)). unfold size_of. lia.
Qed.
Lemma inputs_at (ok : ty * N * val -> val -> Prop) (Mo : mem) B : forall xs ps,
  Forall2 (fun x p => exists v', ok x v' /\ repr E any_header Mo (fst (fst x)) (B + p) v') xs ps ->
  exists ys, map fst ys = places B (map fst xs) ps /\ Forall2 (fun x y => fst (fst x) = fst (fst y) /\ ok x (snd y)) xs ys /\
    Forall2 (fun y p => snd (fst y) = B + p /\ repr E any_header Mo (fst (fst y)) (B + p) (snd y)) ys ps.
Proof.
  induction 1 as [|[[t a] v] p xs ps (v' & H1 & H2) H (ys & I1 & I2 & I3)].
  - exists []. repeat split; constructor.
  - exists ((t, B + p, v') :: ys). cbn. split; [f_equal; exact I1|]. split; constructor; cbn; auto.
Qed.

Lemma one_generation m m' ps ps' : generation m ps m' ps' -> forall xs, map fst xs = ps -> Forall (holds m) xs ->
  exists ys, map fst ys = ps' /\ Forall (holds m') ys /\
    Forall2 (fun x y => fst (fst x) = fst (fst y) /\ turns pg by_hand by_proxy (fst (fst x)) (snd x) (snd y)) xs ys.
Proof.
  intros HG xs Hm Hx. destruct (HR m) as (DW & PP & HA). destruct (fuel_for xs) as [d Hd].
  assert (S : forall f, (d <= f)%nat -> Forall (session_input E m f) xs).
  { intros f Hf. apply Forall_forall. intros [[t a] v] Hin. pose proof (proj1 (Forall_forall _ _) Hx _ Hin) as [? ?].
    pose proof (proj1 (Forall_forall _ _) Hd _ Hin) as Q. cbn [snd] in Q. unfold session_input. ands; auto. lia. }
  assert (W : Forall (fun x : ty * N * val => wf_ty E (fst (fst x)) /\ 0 < size_of E (fst (fst x))) xs).
  { eapply Forall_impl; [|exact Hx]. intros [[t a] v] [(Hw & _) H0]. auto. }
  assert (Fin : forall B' M' qs len, B' + len <= umod ->
     Forall2 (fun x p => exists v', turns pg by_hand by_proxy (fst (fst x)) (snd x) v' /\ repr E any_header M' (fst (fst x)) (B' + p) v') xs qs ->
     Forall2 (fun (x : ty * N * val) p => p + size_of E (fst (fst x)) <= len) xs qs ->
     exists ys, map fst ys = places B' ps qs /\ Forall (holds M') ys /\
       Forall2 (fun x y => fst (fst x) = fst (fst y) /\ turns pg by_hand by_proxy (fst (fst x)) (snd x) (snd y)) xs ys).
  { intros B' M' qs len HB H1 H2. destruct (inputs_at (fun x v' => turns pg by_hand by_proxy (fst (fst x)) (snd x) v') M' B' xs qs H1) as (ys & Y1 & Y2 & Y3).
    rewrite Hm in Y1. exists ys. split; [exact Y1|]. split; [|exact Y2]. clear - W Y2 Y3 H2 HB. revert ys Y2 Y3.
    induction H2 as [|[[t a] v] p xs qs Q1 Q2 IH]; intros ys Y2 Y3; inversion Y2 as [|? [[t' a'] v'] ? ys' Z1 Z2]; subst; [constructor|].
    inversion Y3 as [|? ? ? ? X1 X2]; subst. inversion W as [|? ? W1 W2]; subst. cbn [fst snd] in *. destruct Z1 as [<- Z1]. destruct X1 as [-> X1]. destruct W1 as [W1 W3].
    constructor; [|exact (IH W2 ys' Z2 X2)]. split; [|exact W3]. split; [exact W1|]. split; [lia|exact X1]. }
  assert (A : forall f s qs z, ready (r_st R) inv s -> g_dx_all R pg k m f ps (g_from_storage s) = Ok qs z ->
     exists F rs, (d <= F)%nat /\ (f <= F)%nat /\ Forall2 (dx_calls_of pg m F) xs rs /\ g_dx_all R pg k m F (map place_of xs) (g_from_storage s) = Ok qs z /\
       ready (r_st R) inv (gz_st z) /\
       Forall2 (fun (x : ty * N * val) p => p + size_of E (fst (fst x)) <= i_pos (r_st R) (gz_st z)) xs qs).
  { intros f s qs z Hr Hg. set (F := Nat.max d f). exists F. assert (HF : (d <= F)%nat /\ (f <= F)%nat) by (unfold F; lia). destruct HF as [F1 F2].
    pose proof (all_more m f ps _ _ _ F F2 Hg) as Hg'. rewrite <- Hm in Hg'. change (map fst xs) with (map place_of xs) in Hg'.
    destruct (C92_any_storage R inv contents empties C K KP pg k m F xs s HS LO HE PO DW PP Hr (S F F1)) as (rs & R1 & R2).
    destruct (C92_calls_any_storage R pg k m F xs C LO HE PO DW (S F F1)) as (rs' & T1 & T2 & _).
    assert (rs' = rs).
    { clear - T1 R1. revert rs R1. induction T1 as [|[[t a] v] [[l b] ss] xs rs' K1 K2 IH]; intros rs R1; inversion R1 as [|? [[l' b'] ss'] ? rs1 J1 J2]; subst; [reflexivity|].
      destruct K1 as (-> & -> & K1). destruct J1 as (-> & -> & J1). rewrite K1 in J1. injection J1 as <-. f_equal. auto. }
    subst rs'. rewrite Hg' in R2. destruct R2 as (Q1 & Q2 & Q3 & _). exists rs. ands; auto. rewrite Q1, Q2. apply roots_inside with m; [exact T2|].
    clear - R1. induction R1 as [|[[t a] v] [[l b] ss] xs rs K1 K2 IH]; constructor; [|exact IH]. exact (proj1 K1). }
  inversion HG as [f s qs z m2 Hk Hr Hg B HM|f s qs z m2 B' g rs' Hr Hg B len H0 HV HU HC HM]; subst m2 ps'.
  - destruct (A f s qs z Hr Hg) as (F & rs & F1 & F2 & R1 & Hg' & R4 & R5).
    destruct (C92_load R inv contents empties C K KP pg by_hand by_proxy k m F xs s qs z HS LO HE PO DW PP HA HT Hr (S F F1) Hg') as [Q1 _].
    assert (HB : g_read_base R k (gz_st z) = B) by (rewrite Hk; reflexivity). rewrite HB in Q1.
    destruct (N.eq_0_gt_0_cases (i_pos (r_st R) (gz_st z))) as [Z|Z].
    + assert (xs = []).
      { clear - R5 W Z. destruct R5 as [|x p xs qs Q1 Q2]; [reflexivity|]. inversion W as [|? ? W1 W2]; subst. lia. }
      subst xs. cbn [map] in Hm. subst ps. exists []. inversion R5; subst. ands; constructor.
    + apply (Fin B m' qs (i_pos (r_st R) (gz_st z))); [| |exact R5].
      * destruct R4 as [I1 _]. destruct (kc_state _ _ _ _ K _ I1) as (_ & _ & X0). rewrite Hk in HS. destruct HS as (_ & HC & _). destruct (HC _ I1) as (_ & _ & X); [lia|]. unfold B. lia.
      * eapply forall2_imp; [|exact Q1]. intros x p (v' & V1 & V2). exists v'. split; [exact V1|]. eapply repr_mono; [|exact V2].
        intros i y Hi. unfold g_out_mem in Hi. destruct ((B <=? i) && (i <? B + i_pos (r_st R) (gz_st z))) eqn:Eb; [|discriminate].
        rewrite <- Hi. replace i with (B + (i - B)) at 1 by lia. apply HM. lia.
  - destruct (A f s qs z Hr Hg) as (F0 & rs0 & F1 & F2 & R1 & Hg' & R4 & R5). clear R1.
    set (F := Nat.max F0 g). assert (F3 : (d <= F)%nat /\ (F0 <= F)%nat /\ (g <= F)%nat) by (unfold F; lia). destruct F3 as (F3 & F4 & F5).
    pose proof (all_more m F0 _ _ _ _ F F4 Hg') as Hg2.
    destruct (C92_load R inv contents empties C K KP pg by_hand by_proxy k m F xs s qs z HS LO HE PO DW PP HA HT Hr (S F F3) Hg2) as (_ & rs & R1 & R2 & _).
    pose proof (calls_at_fun m F g ps xs rs rs' Hm F5 R1 HC) as ->. destruct R2 as (_ & _ & R2).
    specialize (R2 m' B' H0 HV HU HM).
    assert (HP : qs = roots_pos E (i_pos (r_st R) s) rs).
    { destruct (C92_any_storage R inv contents empties C K KP pg k m F xs s HS LO HE PO DW PP Hr (S F F3)) as (rs2 & T1 & T2).
      rewrite Hg2 in T2. destruct T2 as (-> & _). f_equal. symmetry. clear - T1 R1. revert rs2 T1. induction R1 as [|[[t a] v] [[l b] ss] xs rs K1 K2 IH]; intros rs2 T1; inversion T1 as [|? [[l' b'] ss'] ? rs1 J1 J2]; subst; [reflexivity|].
      destruct K1 as (-> & -> & K1). destruct J1 as (-> & -> & J1). rewrite K1 in J1. injection J1 as <-. f_equal. auto. }
    apply (Fin B' m' qs len); [exact HU| |exact R5]. rewrite HP.
    exact (dx_values_at pg by_hand by_proxy k m F xs rs m' B' C LO HE PO DW HA HT (S F F3) R1 _ R2).
Qed.

(** However often the output is serialized again: its values are there, turned as often as the impls of their parts mean to. *)
Theorem C100_generations : forall n m ps m' ps', generations n m ps m' ps' -> forall xs, map fst xs = ps -> Forall (holds m) xs ->
  exists ys, map fst ys = ps' /\ Forall (holds m') ys /\ Forall2 (becomes n) xs ys.
Proof.
  induction 1 as [m ps|n m ps m1 ps1 m2 ps2 H1 IH H2]; intros xs Hm Hx.
  - exists xs. ands; auto. clear. induction xs as [|x xs IH]; constructor; [split; [reflexivity|constructor]|exact IH].
  - destruct (IH xs Hm Hx) as (ys & Y1 & Y2 & Y3). destruct (one_generation m1 m2 ps1 ps2 H2 ys Y1 Y2) as (zs & Z1 & Z2 & Z3).
    exists zs. ands; auto. clear - Y3 Z3. revert zs Z3. induction Y3 as [|x y xs ys A1 A2 IH]; intros zs Z3; inversion Z3 as [|? w ? zs' B1 B2]; subst; constructor; [|exact (IH _ B2)].
    destruct A1 as [A1 A3], B1 as [B1 B3]. split; [congruence|]. econstructor; [exact A3|]. rewrite A1. exact B3.
Qed.
(** There is nothing else at those places. *)
Theorem C100_values : forall n m ps m' ps' xs, generations n m ps m' ps' -> map fst xs = ps -> Forall (holds m) xs ->
  forall ys, map fst ys = ps' -> Forall (fun y => repr E any_header m' (fst (fst y)) (snd (fst y)) (snd y)) ys -> Forall2 (becomes n) xs ys.
Proof.
  intros n m ps m' ps' xs HG Hm Hx ys Hy Hr. destruct (C100_generations n m ps m' ps' HG xs Hm Hx) as (zs & Z1 & Z2 & Z3).
  assert (ys = zs); [|subst; exact Z3]. rewrite <- Z1 in Hy. clear Z3 Z1. revert zs Hy Z2. induction Hr as [|[[t a] v] ys H1 H2 IH]; intros [|[[t' a'] v'] zs] Hy Z2; try discriminate; [reflexivity|].
  cbn in Hy. injection Hy as -> -> Hy. inversion Z2 as [|? ? W1 W2]; subst. destruct W1 as [(_ & _ & W1) _]. cbn [fst snd] in H1.
  f_equal; [f_equal; exact (repr_unique E any_header m' _ _ _ _ H1 W1)|exact (IH zs Hy W2)].
Qed.
(** And it can be serialized once more: given stack enough the only panic is that of the storage refusing room the calls need; no
    undefined behaviour. *)
Theorem C100_next : forall n m ps m' ps' xs, generations n m ps m' ps' -> map fst xs = ps -> Forall (holds m) xs ->
  exists f0, forall f s, (f0 <= f)%nat -> ready (r_st R) inv s ->
    exists rs, Forall2 (calls_at m' f) ps' rs /\
    match g_dx_all R pg k m' f ps' (g_from_storage s) with
    | Ok qs z => ready (r_st R) inv (gz_st z) /\ qs = roots_pos E (i_pos (r_st R) s) rs /\ i_pos (r_st R) (gz_st z) = roots_end E (i_pos (r_st R) s) rs
    | Panic e z => ready (r_st R) inv (gz_st z) /\ refused_within (r_st R) inv (i_pos (r_st R) s) (roots_end E (i_pos (r_st R) s) rs) e
    | Abort => True
    | UB | OutOfFuel => False
    end.
Proof.
  intros n m ps m' ps' xs HG Hm Hx. destruct (C100_generations n m ps m' ps' HG xs Hm Hx) as (ys & Y1 & Y2 & _).
  destruct (fuel_for ys) as [d Hd]. exists d. intros f s Hf Hr. destruct (HR m') as (DW & PP & HA).
  assert (S : Forall (session_input E m' f) ys).
  { apply Forall_forall. intros [[t a] v] Hin. pose proof (proj1 (Forall_forall _ _) Y2 _ Hin) as [? ?].
    pose proof (proj1 (Forall_forall _ _) Hd _ Hin) as Q. cbn [snd] in Q. unfold session_input. ands; auto. lia. }
  destruct (C92_any_storage R inv contents empties C K KP pg k m' f ys s HS LO HE PO DW PP Hr S) as (rs & R1 & R2). exists rs. split.
  - rewrite <- Y1. clear - R1. induction R1 as [|[[t a] v] [[l b] ss] ys rs K1 K2 IH]; constructor; [exact K1|exact IH].
  - rewrite <- Y1. change (map fst ys) with (map place_of ys). destruct (g_dx_all R pg k m' f (map place_of ys) (g_from_storage s)) as [qs z|e z| | |]; auto.
    + destruct R2 as (Q1 & Q2 & Q3 & _). auto.
    + destruct R2 as (Q1 & Q2 & _). auto.
Qed.

(** Impls that leave values as they are: after any number of generations the values are the first ones. *)
Theorem C100_faithful : (forall id v v', by_hand id v v' -> v = v') -> (forall w t v v', by_proxy w t v v' -> v = v') ->
  forall n m ps m' ps' xs, generations n m ps m' ps' -> map fst xs = ps -> Forall (holds m) xs ->
  exists ys, map fst ys = ps' /\ Forall (holds m') ys /\ map snd ys = map snd xs.
Proof.
  intros B1 B2 n m ps m' ps' xs HG Hm Hx. destruct (C100_generations n m ps m' ps' HG xs Hm Hx) as (ys & Y1 & Y2 & Y3).
  assert (T : forall t v v', turns pg by_hand by_proxy t v v' -> v = v').
  { intros t v v' HU. apply (proj1 (turns_same pg)) with t. revert HU. apply (proj1 (turns_weaken B1 B2)). }
  exists ys. ands; auto. clear - Y3 T. induction Y3 as [|x y xs ys [A1 A2] H IH]; [reflexivity|]. cbn. f_equal; [|exact IH].
  clear - A2 T. induction A2 as [|n v1 v2 H IH H2]; [reflexivity|]. rewrite <- IH. symmetry. eapply T. exact H2.
Qed.
(** Impls that change a value the first time only: later outputs' values are those of the first. *)
Theorem C100_settles : (forall id v v1 v2, by_hand id v v1 -> by_hand id v1 v2 -> v2 = v1) ->
  (forall w t v v1 v2, by_proxy w t v v1 -> by_proxy w t v1 v2 -> v2 = v1) ->
  forall n m ps m1 ps1 m' ps' xs, generation m ps m1 ps1 -> generations n m1 ps1 m' ps' -> map fst xs = ps -> Forall (holds m) xs ->
  exists ys ys', map fst ys = ps1 /\ map fst ys' = ps' /\ Forall (holds m1) ys /\ Forall (holds m') ys' /\
    Forall2 (becomes 1) xs ys /\ map snd ys' = map snd ys.
Proof.
  intros B1 B2 n m ps m1 ps1 m' ps' xs H1 HG Hm Hx. pose proof (proj1 (turns_twice B1 B2)) as T.
  destruct (C100_generations 1 m ps m1 ps1 (Gs_S _ _ _ _ _ _ _ (Gs_0 m ps) H1) xs Hm Hx) as (ys & Y1 & Y2 & Y3).
  destruct (C100_generations n m1 ps1 m' ps' HG ys Y1 Y2) as (zs & Z1 & Z2 & Z3). exists ys, zs. ands; auto.
  clear - Y3 Z3 T. revert zs Z3. induction Y3 as [|x y xs ys [A1 A2] H IH]; intros zs Z3; inversion Z3 as [|? z ? zs' [D1 D2] D3]; subst; [reflexivity|].
  cbn. f_equal; [|exact (IH zs' D3)]. inversion A2 as [|? v1 v2 C1 C2]; subst. inversion C1; subst. rewrite <- A1 in D2.
  clear - D2 C2 T. induction D2 as [|n v1 v2 H IH H2]; [reflexivity|]. rewrite IH in H2. exact (T _ _ _ C2 _ H2).
Qed.
(** Every session of values that succeeds is a generation: where its output is (Complete), and at any address the loader of C91 puts it. *)
Theorem C100_any_session : forall m ps xs f s qs z, map fst xs = ps -> Forall (holds m) xs ->
  ready (r_st R) inv s -> g_dx_all R pg k m f ps (g_from_storage s) = Ok qs z ->
  let B := g_read_base R k (gz_st z) in
  let len := i_pos (r_st R) (gz_st z) in
  let M := g_out_mem (r_st R) contents B (gz_st z) in
  (k = Complete -> generation m ps M (places B ps qs)) /\
  exists g rs, Forall2 (calls_at m g) ps rs /\
    forall B', 0 < B' -> (MVA | B') -> B' + len < umod ->
      generation m ps (load M B B' len (map (N.add B) (roots_words E (i_pos (r_st R) s) rs))) (places B' ps qs).
Proof.
  intros m ps xs f s qs z Hm Hx Hr Hg B len M. destruct (HR m) as (DW & PP & HA). split.
  - intros Hk. assert (HB : B = r_as_ptr R (gz_st z)) by (unfold B; rewrite Hk; reflexivity). rewrite HB. eapply G_in_place; [exact Hk|exact Hr|exact Hg|].
    intros i Hi. unfold M, g_out_mem. rewrite HB. destruct ((_ <=? _) && (_ <? _)) eqn:Eb; [|lia]. f_equal. lia.
  - destruct (fuel_for xs) as [d Hd]. set (F := Nat.max d f). assert (HF : (d <= F)%nat /\ (f <= F)%nat) by (unfold F; lia). destruct HF as [F1 F2].
    assert (S : Forall (session_input E m F) xs).
    { apply Forall_forall. intros [[t a] v] Hin. pose proof (proj1 (Forall_forall _ _) Hx _ Hin) as [? ?].
      pose proof (proj1 (Forall_forall _ _) Hd _ Hin) as Q. cbn [snd] in Q. unfold session_input. ands; auto. lia. }
    pose proof (all_more m f ps _ _ _ F F2 Hg) as Hg'. rewrite <- Hm in Hg'. change (map fst xs) with (map place_of xs) in Hg'.
    destruct (C92_load R inv contents empties C K KP pg by_hand by_proxy k m F xs s qs z HS LO HE PO DW PP HA HT Hr S Hg') as (_ & rs & R1 & (Q3 & Q4 & _) & _).
    assert (R2 : Forall2 (calls_at m F) ps rs).
    { rewrite <- Hm. clear - R1. induction R1 as [|[[t a] v] [[l b] ss] ys rs K1 K2 IH]; constructor; [exact K1|exact IH]. }
    exists F, rs. split; [exact R2|]. intros B' D1 D2 D3.
    eapply (G_moved m ps f s qs z _ B' F rs Hr Hg); [exact D1|exact D2|lia|exact R2|].
    exact (load_moves M B B' len _ C D3 Q3 (fun q Hq => proj2 (Q4 q Hq))).
Qed.
End Facts.
End Gen.

(** ** The program of C92 (PropDeleg.v), over AlignedVec *)
From Coq Require Import String.
From Verif Require Import PropStorage PropSerialize Demo WitnessSerialize WitnessDerive PropIdem.
#[local] Existing Instance ascii_lexer.
Lemma every_hand_boxes m a v : @repr demo deleg_env any_header m (TNamed 1) a v -> exists p, hand_impl m a = [SPush 0 u64_layout p 1 [SOver 0 u64_layout (bytes_src (w64 99))]] /\ p + 8 <= @umod demo.
Proof.
  intros Hr. destruct (hand_repr _ _ _ Hr) as (v0 & -> & Hb). destruct (dbox_repr _ _ _ Hb) as (p & x & -> & Hp & Hu & _). exists p. split; [|exact Hu].
  unfold hand_impl. rewrite Hp. reflexivity.
Qed.
Lemma outer_turns : forall v v', turns (P := demo) deleg_prog to_7_99 (fun _ _ => eq) (TNamed 0) v v' -> forall n x h, v = VStruct [n; x; h] ->
    v' = VStruct [n; x; VStruct [VBox (VPrim 99)]].
Proof.
  intros v v' HU n x h ->. inversion HU as [| | | | | | | | |id h0 w w' HI|id i l fs dfs cs vs vs' HI HD Hd Hw Hf|id i l d vss j fs vs vs' HI HD Hd Hf]; subst.
  - unfold impl_for in HI. cbn in HI. discriminate HI.
  - unfold impl_for in HI. cbn in HI. injection HI as <-. cbn in HD. injection HD as <- <-. cbn in Hd. injection Hd as <-.
    destruct (two_callees _ Hw) as (w & ->). inversion Hf as [|? ? ? ? ? v1 ? vs1 T1 Hf2|]; subst. inversion T1; subst.
    inversion Hf2 as [| |? ? ? ? ? ? v2 ? vs2 T2 Hf3]; subst. inversion Hf3 as [|? ? ? ? ? v3 ? vs3 T3 Hf4|]; subst. inversion Hf4; subst.
    inversion T3 as [| | | | | | | | |id h0 w0 w' HI HB|id i l fs dfs cs vs vs' HI|id i l d vss j fs vs vs' HI]; subst;
      unfold impl_for in HI; cbn in HI; try discriminate HI. cbn in HB. subst. reflexivity.
Qed.
Lemma deleg_rules : rules (P := demo) deleg_prog to_7_99 (fun _ _ => eq) Complete.
Proof.
  assert (W64 : forall Mo A n, (forall i, i < 8 -> Mo (A + i) = bytes_src (w64 n) i) -> n < 256 -> @read_int demo Mo A 8 = Some n).
  { intros Mo A n HM Hn. apply (@read_word_src demo); [change (@umod demo) with 18446744073709551616; lia|exact HM]. }
  intros m. split; [|split].
  - split.
    + intros [|[|[|id]]] h H; unfold impl_for in H; cbn in H; try discriminate; injection H as <-; intros a v Hr Ha.
      * destruct (every_hand_boxes m a v Hr) as (p & -> & Hu).
        constructor; [|intros ? ? []|constructor]. apply OK_push; [le|dv|dv|apply slice_8; exact Hu|].
        constructor; [|intros ? ? []|constructor]. apply OK_over; [gl|cbn; lia|le|dv|dv].
      * destruct (wrap_repr _ _ _ Hr) as (v0 & e & -> & H0). destruct (outer_repr _ _ _ H0) as (HR & _). unfold wrap_impl. rewrite HR.
        constructor; [|intros s' i [<-|[]] T1 T2; unfold touched in T1, T2; cbn [touch] in T1, T2; change (size_of (P := demo) (pr_env deleg_prog) (TNamed 0)) with 24 in T1; lia|].
        -- apply OK_field; [eapply W_named; reflexivity|rewrite N.add_0_r; exact H0|cbn [vdepth map list_max fold_right]; lia|le|dv|dv].
        -- constructor; [|intros ? ? []|constructor]. apply OK_over; [gl|cbn; lia|le|dv|dv].
    + intros w t Hw. rewrite (deleg_proxied w t Hw). intros a v Hr Ha. destruct (dbox_repr _ _ _ Hr) as (p & x & -> & Hp & Hu & _). cbn [pr_with deleg_prog]. unfold proxy_impl. rewrite Hp.
      constructor; [|intros ? ? []|constructor]. apply OK_plain; [le|dv|dv|apply slice_8; exact Hu].
  - split.
    + intros [|[|[|id]]] h a H; unfold impl_for in H; cbn in H; try discriminate; injection H as <-.
      * unfold hand_impl. destruct (read_word m a); reflexivity.
      * unfold wrap_impl. destruct (read_outer m a); reflexivity.
    + intros w t a. cbn [pr_with deleg_prog]. unfold proxy_impl. destruct (read_word m a); reflexivity.
  - split.
    + intros [|[|[|id]]] h H; unfold impl_for in H; cbn in H; try discriminate; injection H as <-; intros a v Mo B p Hr Ha HX.
      * destruct (every_hand_boxes m a v Hr) as (q & Hq & Hu). rewrite Hq in HX. inversion HX as [? ? ? ? _ E1]; subst.
        specialize (E1 _ (or_introl eq_refl)). inversion E1 as [? ? ? ? ? ? ? q' J1 J2| | | | |]; subst. unfold points in J1. cbn [tracking] in J1. destruct J1 as [J1 J3].
        rewrite N.add_0_r in J1. inversion J2 as [? ? ? ? _ E2]; subst. specialize (E2 _ (or_introl eq_refl)). inversion E2 as [| | |? ? ? ? ? M1 M2| |]; subst. specialize (M1 eq_refl).
        eexists. split; [reflexivity|]. eapply R_named; [reflexivity|]. apply R_struct. constructor; [|constructor].
        rewrite N.add_0_r. apply (R_box (P := demo) _ _ _ _ _ (B + q')); [exact J1|apply J3; discriminate|exact Logic.I|].
        apply R_prim; [|reflexivity]. apply W64; [|reflexivity].
        intros i Hi. rewrite <- N.add_assoc. specialize (M1 i Hi). rewrite N.add_0_r in M1. exact M1.
      * destruct (wrap_repr _ _ _ Hr) as (v0 & e & -> & H0). destruct (outer_repr _ _ _ H0) as (HR & n & x & y & Hv0). unfold wrap_impl in HX. rewrite HR in HX.
        inversion HX as [? ? ? ? _ E1]; subst. pose proof (E1 _ (or_introl eq_refl)) as E2. specialize (E1 _ (or_intror (or_introl eq_refl))).
        inversion E2 as [| | | |? ? ? ? ? v' T1 T2|]; subst. inversion E1 as [| | |? ? ? ? ? M1 M2| |]; subst. specialize (M1 eq_refl).
        rewrite (outer_turns _ v' T1 _ _ _ eq_refl) in T2.
        exists (VStruct [VStruct [VPrim n; VBox (VPrim x); VStruct [VBox (VPrim 99)]]; VPrim 7]). split; [cbn; unfold outer_val; eauto 10|].
        eapply R_named; [reflexivity|]. apply R_struct. constructor; [replace (B + p + 0) with (B + (p + 0)) by lia; exact T2|]. constructor; [|constructor].
        apply R_prim; [|reflexivity]. apply W64; [|reflexivity]. intros i Hi. replace (B + p + 24 + i) with (B + (p + 24 + i)) by lia. exact (M1 i Hi).
    + intros w t Hw. rewrite (deleg_proxied w t Hw). intros a v Mo B p Hr Ha HX. inversion Hr as [|t' a' q v' Hq Hv Hh Hc| | | | | |]; subst.
      inversion Hc as [? ? ? n' N1 N2| | | | | | |]; subst. cbn [pr_with deleg_prog] in HX. unfold proxy_impl in HX. rewrite Hq in HX.
      inversion HX as [? ? ? ? _ E1]; subst. specialize (E1 _ (or_introl eq_refl)). inversion E1 as [|? ? ? ? ? ? q' J1 J2| | | |]; subst. unfold points in J1. cbn [tracking] in J1. destruct J1 as [J1 J3].
      rewrite N.add_0_r in J1. eexists. split; [reflexivity|].
      apply (R_box (P := demo) _ _ _ _ _ (B + q')); [exact J1|apply J3; discriminate|exact Logic.I|].
      apply R_prim; [|reflexivity]. rewrite <- N1. apply (read_int_ext (P := demo)). intros j Hj. rewrite <- N.add_assoc. apply J2; [lia|exact Hj].
Qed.
(** With a PtrOffset serializer the overwrites do nothing, and the impls leave the value as it is. *)
Lemma deleg_rules_po : rules (P := demo) deleg_prog (fun _ => eq) (fun _ _ => eq) PtrOffset.
Proof.
  intros m. destruct (deleg_rules m) as (DW & PP & _). split; [exact DW|]. split; [exact PP|].
  assert (SB : forall Mo B p a n x, @same_bytes m Mo B p a 0 n -> n = 8 -> @read_int demo m a 8 = Some x -> @read_int demo Mo (B + p) 8 = Some x).
  { intros Mo B p a n x HS -> <-. apply (read_int_ext (P := demo)). intros j Hj. rewrite <- N.add_assoc. apply HS; lia. }
  split.
  - intros [|[|[|id]]] h H; unfold impl_for in H; cbn in H; try discriminate; injection H as <-; intros a v Mo B p Hr Ha HX; exists v; (split; [reflexivity|]).
    + destruct (hand_repr _ _ _ Hr) as (v0 & -> & Hb). destruct (dbox_repr _ _ _ Hb) as (q & x & -> & Hq & Hu & Hx). unfold hand_impl in HX. rewrite Hq in HX.
      inversion HX as [? ? ? ? _ E1]; subst. specialize (E1 _ (or_introl eq_refl)). inversion E1 as [? ? ? ? ? ? ? q' J1 J2| | | | |]; subst.
      unfold points in J1. cbn [tracking] in J1. destruct J1 as [J1 J3]. rewrite N.add_0_r in J1.
      inversion J2 as [? ? ? ? _ E2]; subst. specialize (E2 _ (or_introl eq_refl)). inversion E2 as [| | |? ? ? ? ? _ M2| |]; subst.
      specialize (M2 ltac:(discriminate)). eapply R_named; [reflexivity|]. apply R_struct. constructor; [|constructor].
      rewrite N.add_0_r. apply (R_box (P := demo) _ _ _ _ _ (B + q')); [exact J1|apply J3; discriminate|exact Logic.I|].
      apply R_prim; [|reflexivity]. eapply SB; [exact M2|reflexivity|exact Hx].
    + destruct (wrap_repr _ _ _ Hr) as (v0 & e & -> & H0). destruct (outer_repr _ _ _ H0) as (HR & n & x & y & Hv0). unfold wrap_impl in HX. rewrite HR in HX.
      inversion HX as [? ? ? ? _ E1]; subst. pose proof (E1 _ (or_introl eq_refl)) as E2. specialize (E1 _ (or_intror (or_introl eq_refl))).
      inversion E2 as [| | | |? ? ? ? ? v' T1 T2|]; subst. inversion E1 as [| | |? ? ? ? ? _ M2| |]; subst. specialize (M2 ltac:(discriminate)).
      pose proof (proj1 (turns_same (P := demo) deleg_prog) _ _ _ T1) as <-.
      inversion Hr as [| | | | | | |id' d a' v' Hid Hd]; subst. cbn in Hid. injection Hid as <-.
      inversion Hd as [| | | | |l fs a' vs Hf| |]; subst. inversion Hf as [|off t fs' a' v1 vs' H1 Hf2]; subst.
      inversion Hf2 as [|off t fs' a' v2 vs2 H2 Hf3]; subst. inversion H2 as [l ok a1 n2 R1 R2| | | | | | |]; subst.
      eapply R_named; [reflexivity|]. apply R_struct. constructor; [replace (B + p + 0) with (B + (p + 0)) by lia; exact T2|]. constructor; [|constructor].
      apply R_prim; [|reflexivity]. rewrite <- R1. apply (read_int_ext (P := demo)). intros j Hj. cbn [u64_layout l_size] in M2, Hj.
      replace (B + p + 24 + j) with (B + (p + (24 + j))) by lia. replace (a + 24 + j) with (a + (24 + j)) by lia. apply M2; lia.
  - intros w t Hw. rewrite (deleg_proxied w t Hw). intros a v Mo B p Hr Ha HX. exists v. split; [reflexivity|].
    destruct (dbox_repr _ _ _ Hr) as (q & x & -> & Hq & Hu & Hx). cbn [pr_with deleg_prog] in HX. unfold proxy_impl in HX. rewrite Hq in HX.
    inversion HX as [? ? ? ? _ E1]; subst. specialize (E1 _ (or_introl eq_refl)). inversion E1 as [|? ? ? ? ? ? q' J1 J2| | | |]; subst.
    unfold points in J1. cbn [tracking] in J1. destruct J1 as [J1 J3]. rewrite N.add_0_r in J1.
    apply (R_box (P := demo) _ _ _ _ _ (B + q')); [exact J1|apply J3; discriminate|exact Logic.I|].
    apply R_prim; [|reflexivity]. eapply SB; [exact J2|reflexivity|exact Hx].
Qed.
Theorem C100_hypotheses :
  rules (P := demo) deleg_prog to_7_99 (fun _ _ => eq) Complete /\
  (forall id v v1 v2, to_7_99 id v v1 -> to_7_99 id v1 v2 -> v2 = v1) /\
  rules (P := demo) deleg_prog (fun _ => eq) (fun _ _ => eq) PtrOffset.
Proof.
  split; [exact deleg_rules|]. split; [|exact deleg_rules_po].
  intros id v v1 v2 H1 H2. destruct id as [|[|[|id]]]; cbn in *; try congruence.
  destruct H1 as (n & x & h & e & -> & ->). destruct H2 as (n' & x' & h' & e' & H2 & ->). injection H2 as <- <- <- <-. reflexivity.
Qed.
(** The session of C92's value, and that of what it leaves, where it is, into another storage. *)
Definition av_run (w : sw) (m : mem) (xs : list (ty * N)) := g_dx_all (P := demo) (aligned_vec_ra (P := demo)) deleg_prog Complete m 10 xs (g_from_storage w).
Definition av_after (w : sw) (m : mem) (xs : list (ty * N)) : mem :=
  match av_run w m xs with Ok _ z => g_out_mem (r_st (aligned_vec_ra (P := demo))) av_contents (s_ptr (sw_s (gz_st z))) (gz_st z) | _ => no_mem end.
Definition first_in : list (ty * N) := map place_of deleg_inputs.
Definition out_1 : mem := av_after demo_w deleg_mem first_in.
Definition at_1 : list (ty * N) := match av_run demo_w deleg_mem first_in with Ok ps z => places (s_ptr (sw_s (gz_st z))) first_in ps | _ => [] end.
Definition out_2 : mem := av_after big_w out_1 at_1.
Definition at_2 : list (ty * N) := match av_run big_w out_1 at_1 with Ok ps z => places (s_ptr (sw_s (gz_st z))) at_1 ps | _ => [] end.
Lemma av_in_place w m xs ps z : @storage_ok demo w -> av_run w m xs = Ok ps z ->
  generation (P := demo) (aligned_vec_ra (P := demo)) (av_inv (P := demo)) av_contents deleg_prog Complete m xs (av_after w m xs) (places (s_ptr (sw_s (gz_st z))) xs ps).
Proof.
  intros Hw H. change (s_ptr (sw_s (gz_st z))) with (r_as_ptr (aligned_vec_ra (P := demo)) (gz_st z)).
  eapply (G_in_place (P := demo)); [reflexivity|apply (proj2 (av_ready_iff (P := demo) w)); exact Hw|exact H|].
  intros i Hi. unfold av_after. rewrite H. unfold g_out_mem. change (s_ptr (sw_s (gz_st z))) with (r_as_ptr (aligned_vec_ra (P := demo)) (gz_st z)).
  destruct ((_ <=? _) && (_ <? _)) eqn:Eb; [|lia]. f_equal. lia.
Qed.
(** The first output is at 131072, the second, of what is in the first, at 65536; the values are 7 and 99 where the impls put them, in both. *)
Definition turned_val : val := VStruct [outer_val 11 21 99; VPrim 7].
Theorem C100_witness :
  rules (P := demo) deleg_prog to_7_99 (fun _ _ => eq) Complete /\
  Forall (holds (P := demo) deleg_prog deleg_mem) deleg_inputs /\
  generations (P := demo) (aligned_vec_ra (P := demo)) (av_inv (P := demo)) av_contents deleg_prog Complete 2 deleg_mem first_in out_2 at_2 /\
  at_1 = [(TBox (TNamed 2), 131072); (TNamed 2, 131128)] /\ at_2 = [(TBox (TNamed 2), 65536); (TNamed 2, 65592)] /\
  map (fun i => @read_word demo out_1 (131072 + 8 * N.of_nat i)) (seq 0 13) =
    map Some [131080; 11; 131112; 131120; 7; 21; 99; 11; 131160; 131168; 7; 21; 99] /\
  map (fun i => @read_word demo out_2 (65536 + 8 * N.of_nat i)) (seq 0 13) =
    map Some [65544; 11; 65576; 65584; 7; 21; 99; 11; 65624; 65632; 7; 21; 99] /\
  (forall n v, turned (P := demo) deleg_prog to_7_99 (fun _ _ => eq) (TBox (TNamed 2)) deleg_val (S n) v -> v = VBox turned_val).
Proof.
  split; [exact deleg_rules|]. split; [|split; [|split; [|split; [|split; [|split]]]]].
  - constructor; [split; [apply C92_hypotheses|vm_compute; reflexivity]|]. constructor; [|constructor]. split; [|vm_compute; reflexivity].
    destruct C92_hypotheses as (_ & _ & _ & _ & _ & _ & (Hw & _ & Hr) & _). split; [|split; [le|]].
    + inversion Hw; subst. assumption.
    + inversion Hr as [|t a p v H1 H2 H3 H4| | | | | |]; subst. assert (p = 8192) as ->; [|exact H4].
      assert (X : @read_word demo deleg_mem 4096 = Some 8192) by (vm_compute; reflexivity). rewrite X in H1. injection H1 as <-. reflexivity.
  - apply (Gs_S (P := demo)) with (m1 := out_1) (xs1 := at_1).
    + apply (Gs_S (P := demo)) with (m1 := deleg_mem) (xs1 := first_in); [constructor|]. unfold at_1, out_1.
      assert (X : match av_run demo_w deleg_mem first_in with Ok _ _ => True | _ => False end) by (vm_compute; exact Logic.I).
      destruct (av_run demo_w deleg_mem first_in) as [ps z| | | |] eqn:E1; try contradiction. exact (av_in_place _ _ _ _ _ demo_w_ok E1).
    + unfold at_2, out_2. assert (X : match av_run big_w out_1 at_1 with Ok _ _ => True | _ => False end) by (vm_compute; exact Logic.I).
      destruct (av_run big_w out_1 at_1) as [ps z| | | |] eqn:E1; try contradiction. exact (av_in_place _ _ _ _ _ big_w_ok E1).
  - vm_compute. reflexivity.
  - vm_compute. reflexivity.
  - vm_compute. reflexivity.
  - vm_compute. reflexivity.
  - intros n v H.
    assert (T : forall w v', (w = deleg_val \/ w = VBox turned_val) -> turns (P := demo) deleg_prog to_7_99 (fun _ _ => eq) (TBox (TNamed 2)) w v' -> v' = VBox turned_val).
    { intros w v' Hw HU. assert (Q : exists n x h e, w = VBox (VStruct [VStruct [n; x; h]; e]) /\ n = VPrim 11 /\ x = VBox (VPrim 21)).
      { destruct Hw as [->| ->]; do 4 eexists; split; [reflexivity|auto|reflexivity|auto]. }
      destruct Q as (n0 & x & h & e & -> & -> & ->).
      inversion HU as [| |t0 w0 w' Hz HT| |t0 w0 Hz| | | | | | |]; subst; [|vm_compute in Hz; discriminate Hz].
      inversion HT as [| | | | | | | | |id h0 w0 w1 HI HB|id i l fs dfs cs vs vs' HI|id i l d vss j fs vs vs' HI]; subst; unfold impl_for in HI; cbn in HI; try discriminate HI.
      cbn in HB. destruct HB as (n1 & x1 & h1 & e1 & HB & ->). injection HB as <- <- <- <-. reflexivity. }
    remember (S n) as k eqn:Ek. revert n Ek. induction H as [|k v1 v2 H IH H2]; intros n Ek; [discriminate|]. injection Ek as ->.
    destruct n as [|n]; [inversion H; subst; eapply T; [left; reflexivity|exact H2]|].
    eapply T; [right; exact (IH n eq_refl)|exact H2].
Qed.
