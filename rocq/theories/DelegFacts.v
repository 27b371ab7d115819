(** * DelegFacts: proofs for C92. *)
From Coq Require Import Arith.
From Verif Require Import Base Types Storage Serializer Serialize Client Spec ClientSpec ArithFacts TypeFacts SerMain SerRoot SerProps ClientFacts Build Depth
  Derive DeriveSpec DeriveFacts PropDerive Mixed MixedFacts PropMixed MixedValid
  GenStorage GenSerializer GenClient GenClientSpec GenClientFacts GenMixed GenMixedFacts Relocate PropRelocate Deleg.
From Coq Require Import ZifyBool ZifyNat ZifyN.
Local Open Scope N_scope.

Lemma cat_inv x y ss : cat_calls x y = Some ss -> exists s1 s2, x = Some s1 /\ y = Some s2 /\ ss = s1 ++ s2.
Proof. destruct x as [s1|], y as [s2|]; cbn; try discriminate. intros H; injection H as <-. eauto. Qed.
Lemma off_inv off x ss : at_off off x = Some ss -> exists s1, x = Some s1 /\ ss = map (shift off) s1.
Proof. destruct x as [s1|]; cbn; try discriminate. intros H; injection H as <-. eauto. Qed.

(** Induction on calls. *)
Section StepInd.
Variable Q : step -> Prop.
Variable QS : list step -> Prop.
Hypothesis Hpush : forall off l tp n body, QS body -> Q (SPush off l tp n body).
Hypothesis Hplain : forall off l tp n, Q (SPushPlain off l tp n).
Hypothesis Hraw : forall l tp n, Q (SRaw l tp n).
Hypothesis Hover : forall off l d, Q (SOver off l d).
Hypothesis Hfield : forall off t v, Q (SField off t v).
Hypothesis Hstore : forall o, Q (SStore o).
Hypothesis Hpanic : Q SPanic.
Hypothesis Hnil : QS [].
Hypothesis Hcons : forall s ss, Q s -> QS ss -> QS (s :: ss).
Fixpoint step_induct (s : step) : Q s :=
  match s with
  | SPush off l tp n body =>
      Hpush off l tp n body ((fix go (ss : list step) : QS ss :=
        match ss with [] => Hnil | s :: ss' => Hcons s ss' (step_induct s) (go ss') end) body)
  | SPushPlain off l tp n => Hplain off l tp n
  | SRaw l tp n => Hraw l tp n
  | SOver off l d => Hover off l d
  | SField off t v => Hfield off t v
  | SStore o => Hstore o
  | SPanic => Hpanic
  end.
Lemma steps_induct ss : QS ss.
Proof. induction ss as [|s ss IH]; [exact Hnil|apply Hcons; [apply step_induct|exact IH]]. Qed.
End StepInd.

Lemma expand_push rec a off l tp n body : expand rec a (SPush off l tp n body) =
  match expands rec tp body with Some b => Some [SPush off l tp n b] | None => None end.
Proof.
  cbn [expand]. match goal with |- match ?x with _ => _ end = match ?y with _ => _ end => assert (x = y) as -> end; [|reflexivity].
  induction body as [|s ss IH]; [reflexivity|]. cbn [expands]. rewrite <- IH. reflexivity.
Qed.

Definition below (rec rec' : ty -> N -> option (list step)) : Prop := forall t a ss, rec t a = Some ss -> rec' t a = Some ss.
Lemma expands_mono rec rec' : below rec rec' -> forall s0 a ss, expands rec a s0 = Some ss -> expands rec' a s0 = Some ss.
Proof.
  intros HB. apply (steps_induct (fun s => forall a ss, expand rec a s = Some ss -> expand rec' a s = Some ss)
    (fun s0 => forall a ss, expands rec a s0 = Some ss -> expands rec' a s0 = Some ss)); auto.
  - intros off l tp n body IH a ss. rewrite !expand_push. destruct (expands rec tp body) as [b|] eqn:Eb; [|discriminate].
    rewrite (IH tp b Eb). auto.
  - intros off t v a ss H. cbn [expand] in *. apply off_inv in H. destruct H as (s1 & H & ->). rewrite (HB _ _ _ H). reflexivity.
  - intros s ss0 IH1 IH2 a ss H. cbn [expands] in *. apply cat_inv in H. destruct H as (s1 & s2 & H1 & H2 & ->).
    rewrite (IH1 a s1 H1), (IH2 a s2 H2). reflexivity.
Qed.

Section Facts.
Context {P : Params} {L : Lexer}.
Variable pg : program.
Variable m : mem.
Notation E := (pr_env pg).
Notation out F := (written_out pg m F).
Notation cl := (calls pg m).

Lemma elems_mono rec rec' : below rec rec' -> forall t n off a ss, calls_elems pg rec t n off a = Some ss -> calls_elems pg rec' t n off a = Some ss.
Proof.
  intros HB t n. induction n as [|n IH]; intros off a ss H; cbn [calls_elems] in *; [exact H|].
  apply cat_inv in H. destruct H as (s1 & s2 & H1 & H2 & ->). apply off_inv in H1. destruct H1 as (s1' & H1 & ->).
  rewrite (HB _ _ _ H1), (IH _ _ _ H2). reflexivity.
Qed.
Lemma fields_mono rec rec' : below rec rec' -> forall fs cs a ss, calls_fields pg m rec fs cs a = Some ss -> calls_fields pg m rec' fs cs a = Some ss.
Proof.
  intros HB fs. induction fs as [|[off t] fs IH]; intros [|c cs] a ss H; cbn [calls_fields] in *; try exact H; try discriminate.
  apply cat_inv in H. destruct H as (s1 & s2 & H1 & H2 & ->). apply off_inv in H1. destruct H1 as (s1' & H1 & ->).
  assert (H3 : calls_field pg m rec' c t (a + off) = Some s1').
  { destruct c as [|w]; cbn [calls_field] in *; [exact (HB _ _ _ H1)|exact (expands_mono rec rec' HB _ _ _ H1)]. }
  rewrite H3, (IH _ _ _ H2). reflexivity.
Qed.
Lemma variant_mono rec rec' : below rec rec' -> forall d vss a ss, variant_calls pg m rec d vss a = Some ss -> variant_calls pg m rec' d vss a = Some ss.
Proof.
  intros HB d vss a ss. unfold variant_calls. destruct (read_discr m a d) as [v|]; [|discriminate].
  destruct (nth_error vss v) as [fs|]; [|discriminate]. apply (fields_mono rec rec' HB).
Qed.
Lemma calls_step : forall f, below (cl f) (cl (S f)).
Proof.
  induction f as [|f IH]; intros t a ss H; [discriminate|].
  remember (S f) as g. cbn [calls]. rewrite Heqg in H. cbn [calls] in H.
  destruct t as [l ok|t|vl t|vl|t n|l fs|l d vss|id].
  - exact H.
  - destruct (size_of E t =? 0); [exact H|]. destruct (read_word m a) as [p|]; [|discriminate].
    destruct (cl f t p) as [s1|] eqn:E1; [|discriminate]. rewrite (IH _ _ _ E1). exact H.
  - destruct (size_of E t =? 0); [exact H|]. destruct (read_word m (a + cap_off vl)) as [cap|]; [|discriminate].
    destruct (read_word m (a + ptr_off vl)) as [p|]; [|discriminate]. destruct (read_word m (a + len_off vl)) as [len|]; [|discriminate].
    destruct (len =? 0); [exact H|]. destruct (calls_elems pg (cl f) t (N.to_nat len) 0 p) as [s1|] eqn:E1; [|discriminate].
    rewrite (elems_mono _ _ IH _ _ _ _ _ E1). exact H.
  - exact H.
  - exact (elems_mono _ _ IH _ _ _ _ _ H).
  - exact (fields_mono _ _ IH _ _ _ _ H).
  - exact (variant_mono _ _ IH _ _ _ _ H).
  - destruct (impl_for pg id) as [i|h|]; [| |discriminate].
    + destruct (E id) as [[]|]; try discriminate.
      * destruct (generated i None); [|discriminate]. exact (fields_mono _ _ IH _ _ _ _ H).
      * exact (variant_mono _ _ IH _ _ _ _ H).
    + exact (expands_mono _ _ IH _ _ _ H).
Qed.
Lemma calls_mono f F : (f <= F)%nat -> below (cl f) (cl F).
Proof.
  induction 1 as [|F HF IH]; [intros t a ss H; exact H|]. intros t a ss H. apply calls_step. apply IH. exact H.
Qed.

(** ** The program written out *)
Lemma impl_out F id : impl_for (out F) id =
  match impl_for pg id with
  | IHand h => IHand (fun _ a => or_panic (expands (cl F) a (h m a)))
  | x => x
  end.
Proof. unfold impl_for. cbn [written_out pr_hand pr_derived]. destruct (pr_hand pg id); [reflexivity|]. destruct (pr_derived pg id); reflexivity. Qed.
Lemma out_ok F : program_ok pg -> program_ok (out F).
Proof.
  intros PO id d H. specialize (PO id d H). rewrite impl_out. destruct (impl_for pg id); exact PO.
Qed.
Lemma out_proxied F w t : proxied (out F) w t -> proxied pg w t.
Proof.
  intros (id & i & l & fs & dfs & n & f & off & H1 & H2). exists id, i, l, fs, dfs, n, f, off. rewrite impl_out in H1.
  split; [|exact H2]. destruct (impl_for pg id); try discriminate H1; exact H1.
Qed.
Lemma out_hand F id h' : impl_for (out F) id = IHand h' ->
  exists h, impl_for pg id = IHand h /\ h' = (fun _ a => or_panic (expands (cl F) a (h m a))).
Proof. rewrite impl_out. destruct (impl_for pg id) as [i|h|]; try discriminate. intros H. injection H as <-. eauto. Qed.

Section Made.
Hypothesis C : cfg_ok.
Hypothesis HE : wf_env E.
Hypothesis LO : lexer_ok.
Hypothesis PO : program_ok pg.
Notation H := any_header.

(** What is generated for a derived struct. *)
Lemma derived_callees id i l fs : E id = Some (TStruct l fs) -> impl_for pg id = IDerived i ->
  exists dfs cs ks, i_data i = DStruct dfs /\ Forall2 wanted (field_list dfs) cs /\ generated i None = Some ks /\
    map fst ks = cs /\ map snd ks = seq 0 (length fs) /\ length cs = length fs /\
    (forall n w off t, nth_error cs n = Some (CWith w) -> nth_error fs n = Some (off, t) -> proxied pg w t).
Proof.
  intros H1 EI. pose proof (PO id _ H1) as Pk. rewrite EI in Pk.
  inversion Pk as [l' fs' dfs im Ed Hl Hn Hg Hq|]; subst.
  destruct (pick_callees _ Hq) as [cs Hcs].
  destruct (struct_generated LO i dfs im cs Ed Hl Hg Hcs) as (ks & G1 & G2 & G3).
  assert (LC : length cs = length fs) by (rewrite <- Hn; symmetry; eapply SerFacts.F2_length; exact Hcs).
  exists dfs, cs, ks. ands; auto; [rewrite G2, Hn; reflexivity|].
  intros n w off t Hn1 Hn2. assert (Hx : exists f, nth_error (field_list dfs) n = Some f /\ wanted f (CWith w)).
  { clear - Hcs Hn1. revert n Hn1. induction Hcs as [|f c l cs' Hf Hr IH]; intros [|n] Hn1; cbn in *; try discriminate.
    - injection Hn1 as ->. eauto.
    - eauto. }
  destruct Hx as (f & Hnf & Hwf). inversion Hwf; subst. exists id, i, l, fs, dfs, n, f, off. auto 10.
Qed.

Lemma or_some o ss : o = Some ss -> or_panic o = ss. Proof. intros ->. reflexivity. Qed.

(** The calls are those the program written out makes. *)
Lemma calls_make F : forall f, (f <= S F)%nat -> forall t a ss, cl f t a = Some ss -> makes (out F) m t a ss.
Proof.
  induction f as [|f IH]; intros Hf t a ss Hc; [discriminate|]. specialize (IH ltac:(lia)).
  assert (HM : below (cl f) (cl F)) by (apply calls_mono; lia).
  assert (Hel : forall t n off a ss, calls_elems pg (cl f) t n off a = Some ss -> makes_elems (out F) m t n off a ss).
  { clear - IH. intros t n. induction n as [|n IHn]; intros off a ss Hc; cbn [calls_elems] in Hc.
    - injection Hc as <-. constructor.
    - apply cat_inv in Hc. destruct Hc as (s1 & s2 & H1 & H2 & ->). apply off_inv in H1. destruct H1 as (s1' & H1 & ->).
      apply KE_cons; [apply IH; exact H1|apply IHn; exact H2]. }
  assert (Hfl : forall fs cs a ss, calls_fields pg m (cl f) fs cs a = Some ss -> makes_fields (out F) m fs cs a ss).
  { clear - IH HM. intros fs. induction fs as [|[off t] fs IHn]; intros [|c cs] a ss Hc; cbn [calls_fields] in Hc; try discriminate.
    - injection Hc as <-. constructor.
    - apply cat_inv in Hc. destruct Hc as (s1 & s2 & H1 & H2 & ->). apply off_inv in H1. destruct H1 as (s1' & H1 & ->).
      destruct c as [|w]; cbn [calls_field] in H1.
      + apply KF_own; [apply IH; exact H1|apply IHn; exact H2].
      + assert (Hx : pr_with (out F) w t m (a + off) = s1') by (apply or_some; exact (expands_mono _ _ HM _ _ _ H1)).
        rewrite <- Hx. apply KF_with. apply IHn. exact H2. }
  assert (Hva : forall d vss a ss, variant_calls pg m (cl f) d vss a = Some ss ->
    exists v fs, read_discr m a d = Some v /\ nth_error vss v = Some fs /\ makes_fields (out F) m fs (map (fun _ => CSerialize) fs) a ss).
  { intros d vss a0 s0. unfold variant_calls, own_calls_of. destruct (read_discr m a0 d) as [v|] eqn:E1; [|discriminate].
    destruct (nth_error vss v) as [fs|] eqn:E2; [|discriminate]. intros Hx. exists v, fs. ands; auto. }
  cbn [calls] in Hc.
  destruct t as [l ok|t|vl t|vl|t n|l fs|l d vss|id].
  - injection Hc as <-. constructor.
  - destruct (N.eqb_spec (size_of E t) 0) as [Z|Z]; [injection Hc as <-; apply K_box_zst; exact Z|].
    destruct (read_word m a) as [p|] eqn:E1; [|discriminate]. destruct (cl f t p) as [s1|] eqn:E2; [|discriminate]. injection Hc as <-.
    apply (K_box (out F)); auto.
  - destruct (N.eqb_spec (size_of E t) 0) as [Z|Z]; [injection Hc as <-; apply K_vec_zst; exact Z|].
    destruct (read_word m (a + cap_off vl)) as [cap|] eqn:E1; [|discriminate].
    destruct (read_word m (a + ptr_off vl)) as [p|] eqn:E2; [|discriminate]. destruct (read_word m (a + len_off vl)) as [len|] eqn:E3; [|discriminate].
    destruct (N.eqb_spec len 0) as [Z0|Z0]; [injection Hc as <-; subst len; apply (K_vec_empty (out F)); auto|].
    destruct (calls_elems pg (cl f) t (N.to_nat len) 0 p) as [s1|] eqn:E4; [|discriminate]. injection Hc as <-.
    apply (K_vec (out F)); auto.
  - destruct (read_word m (a + cap_off vl)) as [cap|] eqn:E1; [|discriminate].
    destruct (read_word m (a + ptr_off vl)) as [p|] eqn:E2; [|discriminate]. destruct (read_word m (a + len_off vl)) as [len|] eqn:E3; [|discriminate].
    destruct (N.eqb_spec len 0) as [Z0|Z0]; injection Hc as <-; [subst len; apply (K_string_empty (out F)); auto|apply (K_string (out F)); auto].
  - apply (K_array (out F)). auto.
  - apply (K_struct (out F)). auto.
  - destruct (Hva _ _ _ _ Hc) as (v & fs & V1 & V2 & V3). eapply (K_enum (out F)); eassumption.
  - destruct (impl_for pg id) as [i|h|] eqn:EI; [| |discriminate].
    + assert (EO : impl_for (out F) id = IDerived i) by (rewrite impl_out, EI; reflexivity).
      destruct (E id) as [[]|] eqn:EE; try discriminate.
      * destruct (derived_callees id i _ _ EE EI) as (dfs & cs & ks & D1 & D2 & D3 & D4 & _). rewrite D3, D4 in Hc.
        eapply (K_derived (out F)); eauto.
      * destruct (Hva _ _ _ _ Hc) as (v & fs & V1 & V2 & V3). eapply (K_derived_enum (out F)); eassumption.
    + assert (Hx : or_panic (expands (cl F) a (h m a)) = ss) by (apply or_some; exact (expands_mono _ _ HM _ _ _ Hc)).
      assert (EO : impl_for (out F) id = IHand (fun _ a0 => or_panic (expands (cl F) a0 (h m a0)))) by (rewrite impl_out, EI; reflexivity).
      pose proof (K_hand (out F) m id _ a EO) as X. cbv beta in X. rewrite Hx in X. exact X.
Qed.

(** ** Values have calls *)
Hypothesis DW : delegates_well pg m.

Lemma expands_some rec d : (forall t a v, repr E H m t a v -> wf_ty E t -> a + size_of E t <= umod -> (vdepth v < d)%nat -> exists ss, rec t a = Some ss) ->
  forall size al a s0, steps_ok E m d size al a s0 -> a + size <= umod -> exists ss, expands rec a s0 = Some ss.
Proof.
  intros HR. apply (steps_ok_mut P E m d
    (fun size al a s _ => a + size <= umod -> exists ss, expand rec a s = Some ss)
    (fun size al a s0 _ => a + size <= umod -> exists ss, expands rec a s0 = Some ss)).
  - intros size al a off l tp n body H1 H2 H3 H4 H5 IH Ha. rewrite expand_push. destruct H4 as (_ & _ & H4).
    destruct (IH H4) as [b ->]. eauto.
  - cbn; eauto.
  - cbn; eauto.
  - cbn; eauto.
  - intros size al a off t v H1 H2 H3 H4 H5 H6 Ha. cbn [expand]. destruct (HR t (a + off) v H2 H1 ltac:(lia) H3) as [ss ->]. cbn. eauto.
  - cbn; eauto.
  - cbn; eauto.
  - cbn; eauto.
  - intros size al a s s0 H1 IH1 H2 H3 IH2 Ha. cbn [expands]. destruct (IH1 Ha) as [s1 ->], (IH2 Ha) as [s2 ->]. cbn. eauto.
Qed.

Lemma fields_inside l fs : fields_ok E l fs -> forall off t, In (off, t) fs -> off + size_of E t <= l_size l.
Proof.
  induction 1 as [|off u fs F1 F2 F3 F4 F5 IH]; intros o t Hin; [destruct Hin|].
  destruct Hin as [Hin|Hin]; [injection Hin as -> ->; lia|auto].
Qed.

Lemma calls_exist : forall f t a v, repr E H m t a v -> wf_ty E t -> a + size_of E t <= umod -> (vdepth v < f)%nat ->
  exists ss, cl f t a = Some ss.
Proof.
  pose proof (pW_vals (c_machine C)) as HW.
  induction f as [|f IH]; intros t a v Hr Hw Ha Hf; [lia|].
  assert (Hel : forall t vs b off, repr_elems E H m t (b + off) vs -> wf_ty E t -> b + off + size_of E t * N.of_nat (length vs) <= umod ->
    (list_max (map vdepth vs) < f)%nat -> exists ss, calls_elems pg (cl f) t (length vs) off b = Some ss).
  { clear - IH. intros t vs. induction vs as [|v vs IHn]; intros b off Hr Hw Ha Hf; [cbn; eauto|].
    inversion Hr; subst. cbn [length map list_max fold_right calls_elems] in *. rewrite Nat2N.inj_succ in Ha.
    change (fold_right Nat.max 0%nat (map vdepth vs)) with (list_max (map vdepth vs)) in Hf.
    destruct (IH t (b + off) v) as [s1 ->]; auto; try lia.
    destruct (IHn b (off + size_of E t)) as [s2 ->]; auto; try lia.
    - rewrite N.add_assoc. assumption.
    - cbn. eauto. }
  assert (Hfl : forall l fs vs a cs, repr_fields E H m fs a vs -> fields_ok E l fs -> (forall o t, In (o, t) fs -> wf_ty E t) -> a + l_size l <= umod ->
    length cs = length fs ->
    (forall n w off t, nth_error cs n = Some (CWith w) -> nth_error fs n = Some (off, t) -> proxied pg w t) ->
    (list_max (map vdepth vs) < f)%nat -> exists ss, calls_fields pg m (cl f) fs cs a = Some ss).
  { clear - IH DW. intros l fs vs a cs Hr HF. pose proof (fields_inside l fs HF) as HI. clear HF. revert vs a cs Hr HI.
    induction fs as [|[off t] fs IHn]; intros vs a cs Hr HI Hwf Ha HL HX Hf; [destruct cs; [cbn; eauto|discriminate]|].
    destruct cs as [|c cs]; [discriminate|]. inversion Hr as [|o0 t0 fs0 a0 v0 vs0 R1 R2]; subst.
    cbn [map list_max fold_right calls_fields] in *. change (fold_right Nat.max 0%nat (map vdepth vs0)) with (list_max (map vdepth vs0)) in Hf.
    pose proof (HI off t (or_introl eq_refl)) as Ho. pose proof (Hwf off t (or_introl eq_refl)) as Hw.
    assert (X : exists s1, calls_field pg m (cl f) c t (a + off) = Some s1).
    { destruct c as [|w]; cbn [calls_field].
      - apply (IH t (a + off) v0); auto; lia.
      - destruct DW as [_ DW2]. specialize (DW2 w t (HX 0%nat w off t eq_refl eq_refl) (a + off) v0 R1 ltac:(lia)).
        eapply (expands_some (cl f) (1 + vdepth v0)); [|exact DW2|lia]. intros t' a' v' V1 V2 V3 V4. apply (IH t' a' v'); auto; lia. }
    destruct X as [s1 ->]. destruct (IHn vs0 a cs) as [s2 ->]; auto; try lia; try (cbn; eauto; fail).
    - intros o t' Hin. apply HI. right; exact Hin.
    - intros o t' Hin. apply (Hwf o t'). right; exact Hin.
    - intros n w o t' N1 N2. exact (HX (S n) w o t' N1 N2). }
  assert (Hva : forall l fs vs a, repr_fields E H m fs a vs -> fields_ok E l fs -> (forall o t, In (o, t) fs -> wf_ty E t) -> a + l_size l <= umod ->
    (list_max (map vdepth vs) < f)%nat -> exists ss, own_calls_of pg m (cl f) fs a = Some ss).
  { intros l fs vs a0 R1 R2 R3 R4 R5. unfold own_calls_of. apply (Hfl l fs vs a0 _ R1 R2 R3 R4); auto.
    - apply map_length.
    - intros n w off t0 Hn. exfalso. eapply own_proxies. exact Hn. }
  cbn [calls]. inversion Hr as [l ok a0 n R1 R2|t0 a0 p v0 R1 R2 R3 R4|vl t0 a0 c p vs R1 R2 R3 R4 R5 R6|vl a0 c p bs R1 R2 R3 R4 R5 R6|t0 n a0 vs R1 R2|l fs a0 vs R1|l d vss a0 j fs vs R1 R2 R3 R4|id d a0 v0 R1 R2]; subst; cbn [vdepth] in Hf.
  - eauto.
  - inversion Hw as [|t' Ht HP| | | | | |]; subst. destruct (N.eqb_spec (size_of E t0) 0) as [Z|Z]; [eauto|].
    rewrite R1. destruct R2 as (Hp0 & Hpa & Hpe). fold (size_of E t0) in Hpe. destruct (IH t0 p v0 R4 Ht ltac:(lia) ltac:(lia)) as [ss ->]. eauto.
  - inversion Hw as [| |vl' t' Ht HP| | | | |]; subst. destruct R4 as ((Hp0 & Hpa & Hpe) & _). fold (size_of E t0) in *.
    destruct (N.eqb_spec (size_of E t0) 0) as [Z|Z]; [eauto|]. rewrite R1, R2, R3.
    destruct (N.eqb_spec (N.of_nat (length vs)) 0) as [Z0|Z0]; [eauto|]. rewrite Nat2N.id.
    destruct (Hel t0 vs p 0) as [ss ->]; eauto; rewrite ?N.add_0_r; auto; lia.
  - rewrite R1, R2, R3. destruct (N.of_nat (length bs) =? 0); eauto.
  - inversion Hw as [| | | |t' n' Ht HP| | |]; subst. change (size_of E (TArray t0 (N.of_nat (length vs)))) with (size_of E t0 * N.of_nat (length vs)) in Ha.
    rewrite Nat2N.id. apply Hel; rewrite ?N.add_0_r; auto; lia.
  - inversion Hw as [| | | | |l' fs' Hg Hf' Hin| |]; subst. apply (Hva l fs vs a); auto; lia.
  - inversion Hw as [| | | | | |l' d' vss' Hg Hd' Hf' Hin|]; subst. unfold variant_calls. rewrite R1, R2. apply (Hva l fs vs a); auto; [eapply Hf'; eassumption|intros o t0; eapply Hin; eassumption|lia].
  - assert (HL : layout_of E (TNamed id) = layout_of E d) by (apply (named_size E HE); exact R1).
    destruct (HE id d R1) as [Wd Wk]. pose proof Ha as Ha'. unfold size_of in Ha. rewrite HL in Ha. fold (size_of E d) in Ha.
    pose proof (PO id d R1) as Pk. rewrite R1. destruct (impl_for pg id) as [i|h|] eqn:EI; [| |contradiction].
    + inversion Wd as [| | | | |l fs Hg Hf' Hin|l dd vss Hg Hd' Hf' Hin|]; subst; try contradiction.
      * destruct (derived_callees id i _ _ R1 EI) as (dfs & cs & ks & D1 & D2 & D3 & D4 & D5 & D6 & D7). rewrite D3, D4.
        inversion R2 as [| | | | |l1 fs1 a1 vs R| |]; subst. cbn [vdepth] in Hf. eapply (Hfl l fs vs a); eauto; lia.
      * inversion R2 as [| | | | | |l1 d1 vss1 a1 j fs vs Q1 Q2 Q3 Q4|]; subst. cbn [vdepth] in Hf. unfold variant_calls. rewrite Q1, Q2.
        apply (Hva l fs vs a); auto; [eapply Hf'; eassumption|intros o t0; eapply Hin; eassumption|lia].
    + destruct DW as [DW1 _]. specialize (DW1 id h EI a v Hr Ha').
      eapply (expands_some (cl f) (0 + vdepth v)); [|exact DW1|exact Ha']. intros t' a' v' V1 V2 V3 V4. apply (IH t' a' v'); auto; lia.
Qed.

(** ** The program written out keeps to the rules *)
Lemma expands_ok rec d : (forall t a v ss, repr E H m t a v -> wf_ty E t -> a + size_of E t <= umod -> (vdepth v < d)%nat -> rec t a = Some ss ->
    steps_ok E m 0 (size_of E t) (align_of E t) a ss) ->
  forall size al a s0, steps_ok E m d size al a s0 -> a + size <= umod -> forall ss, expands rec a s0 = Some ss ->
    steps_ok E m 0 size al a ss /\ (forall s i, In s ss -> touched E s i -> exists s', In s' s0 /\ touched E s' i).
Proof.
  intros HR. apply (steps_ok_mut P E m d
    (fun size al a s _ => a + size <= umod -> forall ss, expand rec a s = Some ss ->
       steps_ok E m 0 size al a ss /\ (forall s1 i, In s1 ss -> touched E s1 i -> touched E s i))
    (fun size al a s0 _ => a + size <= umod -> forall ss, expands rec a s0 = Some ss ->
       steps_ok E m 0 size al a ss /\ (forall s i, In s ss -> touched E s i -> exists s', In s' s0 /\ touched E s' i))).
  - intros size al a off l tp n body H1 H2 H3 H4 H5 IH Ha ss. rewrite expand_push. pose proof H4 as (_ & _ & H6).
    destruct (expands rec tp body) as [b|] eqn:Eb; [|discriminate]. intros Hx; injection Hx as <-. destruct (IH H6 b eq_refl) as [I1 I2].
    split; [constructor; [constructor; auto|intros s' i []|constructor]|]. intros s1 i [<-|[]] T. exact T.
  - intros size al a off l tp n H1 H2 H3 H4 Ha ss Hx; injection Hx as <-.
    split; [constructor; [constructor; auto|intros s' i []|constructor]|]. intros s1 i [<-|[]] T. exact T.
  - intros size al a l tp n H1 Ha ss Hx; injection Hx as <-.
    split; [constructor; [constructor; auto|intros s' i []|constructor]|]. intros s1 i [<-|[]] T. exact T.
  - intros size al a off l data H1 H2 H3 H4 H5 Ha ss Hx; injection Hx as <-.
    split; [constructor; [constructor; auto|intros s' i []|constructor]|]. intros s1 i [<-|[]] T. exact T.
  - intros size al a off t v H1 H2 H3 H4 H5 H6 Ha ss Hx. cbn [expand] in Hx. apply off_inv in Hx. destruct Hx as (s1 & Hx & ->).
    pose proof (HR t (a + off) v s1 H2 H1 ltac:(lia) H3 Hx) as O.
    split; [eapply shifts_ok; eassumption|]. intros s2 i Hin T. pose proof (shifts_in pg m 0 off s1 _ _ a O s2 i Hin T) as B.
    unfold touched. cbn [touch]. exact B.
  - intros size al a o H1 H2 H3 Ha ss Hx; injection Hx as <-.
    split; [constructor; [constructor; auto|intros s' i []|constructor]|]. intros s1 i [<-|[]] T. exact T.
  - intros size al a Ha ss Hx; injection Hx as <-.
    split; [constructor; [constructor; auto|intros s' i []|constructor]|]. intros s1 i [<-|[]] T. exact T.
  - intros size al a Ha ss Hx; injection Hx as <-. split; [constructor|intros s i []].
  - intros size al a s s0 H1 IH1 H2 H3 IH2 Ha ss Hx. cbn [expands] in Hx. apply cat_inv in Hx. destruct Hx as (s1 & s2 & X1 & X2 & ->).
    destruct (IH1 Ha s1 X1) as [I1 I2], (IH2 Ha s2 X2) as [J1 J2]. split.
    + apply (app_ok pg m 0); auto. intros x y i Hx Hy T1 T2. destruct (J2 y i Hy T2) as (y' & Y1 & Y2). exact (H2 y' i Y1 (I2 x i Hx T1) Y2).
    + intros x i Hin T. apply in_app_or in Hin. destruct Hin as [Hin|Hin]; [exists s; split; [left; reflexivity|exact (I2 x i Hin T)]|].
      destruct (J2 x i Hin T) as (y & Y1 & Y2). exists y. split; [right; exact Y1|exact Y2].
Qed.

Lemma out_wb : forall F, well_behaved (out F) m 0.
Proof.
  assert (G : forall F, (forall t a v ss, repr E H m t a v -> wf_ty E t -> a + size_of E t <= umod -> cl F t a = Some ss ->
    steps_ok E m 0 (size_of E t) (align_of E t) a ss) -> well_behaved (out F) m 0).
  { intros F HF. destruct DW as [D1 D2].
    assert (X : forall size al a d s0, steps_ok E m d size al a s0 -> a + size <= umod -> steps_ok E m 0 size al a (or_panic (expands (cl F) a s0))).
    { intros size al a d s0 Hs Ha. destruct (expands (cl F) a s0) as [ss|] eqn:Ex; cbn [or_panic].
      - apply (expands_ok (cl F) d (fun t a v ss V1 V2 V3 V4 V5 => HF t a v ss V1 V2 V3 V5) size al a s0 Hs Ha ss Ex).
      - constructor; [constructor|intros s' i []|constructor]. }
    split.
    - intros id h' Hh. destruct (out_hand F id h' Hh) as (h & Hi & ->). intros a v Hr Ha. exact (X _ _ _ _ _ (D1 id h Hi a v Hr Ha) Ha).
    - intros w t Hw. apply out_proxied in Hw. intros a v Hr Ha. exact (X _ _ _ _ _ (D2 w t Hw a v Hr Ha) Ha). }
  induction F as [|F IH]; [apply G; intros t a v ss _ _ _ Hc; discriminate Hc|].
  apply G. intros t a v ss Hr Hw Ha Hc.
  exact (ok_of (out F) PureCopy m 0 C HE LO (out_ok F PO) IH t a v ss Hr Hw Ha (calls_make F (S F) ltac:(lia) t a ss Hc)).
Qed.

(** ** Running the program is running the program written out *)
Section Runs.
Variable k : kind.
Notation runs := (run_steps k E m 0).

Lemma dx_push rec a off l tp n body : dx_step pg k m rec a (SPush off l tp n body) =
  (ad <- addr_from_ref_offset k a off ;;
   push_and_process_slice k (slice_at m l tp n) ad (dx_steps pg k m rec tp body) ;;;
   ret tt).
Proof.
  cbn [dx_step]. assert (He : forall ss, (fix go (ss : list step) : M zs unit :=
    match ss with [] => ret tt | s :: ss' => dx_step pg k m rec tp s ;;; go ss' end) ss = dx_steps pg k m rec tp ss).
  { induction ss as [|s ss IH]; [reflexivity|]. cbn [dx_steps]. rewrite <- IH. reflexivity. }
  rewrite He. reflexivity.
Qed.
Lemma eqm_trans {A} (f g h : M zs A) : eqm f g -> eqm g h -> eqm f h. Proof. intros X Y z. rewrite X. apply Y. Qed.
Lemma eqm_sym {A} (f g : M zs A) : eqm f g -> eqm g f. Proof. intros X z. symmetry. apply X. Qed.
Lemma eqm_load {A} a w (f g : N -> M zs A) : read_word m a = Some w -> eqm (f w) (g w) ->
  eqm (x <- load_word m a ;; f x) (x <- load_word m a ;; g x).
Proof. intros X Y z. unfold bind. rewrite (load_ok m a w z X). apply Y. Qed.
Lemma dx_steps_run rec crec d : (forall t a v, repr E H m t a v -> wf_ty E t -> a + size_of E t <= umod -> (vdepth v < d)%nat ->
    exists ss, crec t a = Some ss /\ eqm (rec t a) (runs a ss)) ->
  forall size al a s0, steps_ok E m d size al a s0 -> a + size <= umod ->
    exists ss, expands crec a s0 = Some ss /\ eqm (dx_steps pg k m rec a s0) (runs a ss).
Proof.
  intros HR. apply (steps_ok_mut P E m d
    (fun size al a s _ => a + size <= umod -> exists ss, expand crec a s = Some ss /\ eqm (dx_step pg k m rec a s) (runs a ss))
    (fun size al a s0 _ => a + size <= umod -> exists ss, expands crec a s0 = Some ss /\ eqm (dx_steps pg k m rec a s0) (runs a ss))).
  - intros size al a off l tp n body H1 H2 H3 H4 H5 IH Ha. rewrite expand_push. destruct H4 as (_ & _ & H4).
    destruct (IH H4) as (b & -> & IH'). eexists; split; [reflexivity|]. eapply eqm_trans; [|apply eqm_sym, (runs_one pg k m 0)].
    rewrite dx_push, run_push.
    apply eqm_bind; [apply eqm_refl|intros ad]. apply eqm_bind; [|intros; apply eqm_refl]. apply eqm_pps. exact IH'.
  - intros. eexists; split; [reflexivity|]. apply eqm_sym, (runs_one pg k m 0).
  - intros. eexists; split; [reflexivity|]. apply eqm_sym, (runs_one pg k m 0).
  - intros. eexists; split; [reflexivity|]. apply eqm_sym, (runs_one pg k m 0).
  - intros size al a off t v H1 H2 H3 H4 H5 H6 Ha. cbn [expand]. destruct (HR t (a + off) v H2 H1 ltac:(lia) H3) as (ss & -> & R).
    eexists; split; [reflexivity|]. cbn [dx_step]. rewrite (shift_runs pg k m 0). exact R.
  - intros. eexists; split; [reflexivity|]. apply eqm_sym, (runs_one pg k m 0).
  - intros. eexists; split; [reflexivity|]. apply eqm_sym, (runs_one pg k m 0).
  - intros. eexists; split; [reflexivity|]. apply eqm_refl.
  - intros size al a s s0 H1 IH1 H2 H3 IH2 Ha. cbn [expands]. destruct (IH1 Ha) as (s1 & -> & X1), (IH2 Ha) as (s2 & -> & X2).
    eexists; split; [reflexivity|]. eapply eqm_trans; [|apply eqm_sym, (runs_app pg k m 0)].
    cbn [dx_steps]. apply eqm_bind; [exact X1|intros _; exact X2].
Qed.

Lemma dx_exec_congr F rec rec' fs a : forall ks,
  (forall c n off t, In (c, n) ks -> nth_error fs n = Some (off, t) ->
     eqm (dx_callee pg k m rec c t (a + off)) (callee_run (out F) k m 0 rec' c t (a + off))) ->
  eqm (dx_exec pg k m rec fs a ks) (exec (out F) k m 0 rec' fs a ks).
Proof.
  induction ks as [|[c n] ks IH]; intros HK; [apply eqm_refl|]. cbn [dx_exec exec].
  destruct (nth_error fs n) as [[off t]|] eqn:En; [|apply eqm_refl].
  apply eqm_bind; [apply (HK c n); [left; reflexivity|exact En]|intros _]. apply IH. intros. eapply HK; [right; eassumption|assumption].
Qed.
End Runs.

Lemma field_at a : forall fs vs, repr_fields E H m fs a vs -> forall n off t, nth_error fs n = Some (off, t) ->
  exists v, repr E H m t (a + off) v /\ (vdepth v <= list_max (map vdepth vs))%nat.
Proof.
  induction fs as [|[o u] fs IH]; intros vs Hr [|n] off t Hn; cbn in Hn; try discriminate; inversion Hr as [|o0 t0 fs0 a0 v0 vs0 R1 R2]; subst;
    cbn [map list_max fold_right]; change (fold_right Nat.max 0%nat (map vdepth vs0)) with (list_max (map vdepth vs0)).
  - injection Hn as -> ->. exists v0. split; [exact R1|lia].
  - destruct (IH _ R2 n off t Hn) as (v & V1 & V2). exists v. split; [exact V1|lia].
Qed.
Lemma seq_nth {A} (ks : list (A * nat)) b len : map snd ks = seq b len -> forall c n, In (c, n) ks -> nth_error (map fst ks) (n - b) = Some c /\ (b <= n)%nat.
Proof.
  revert b len. induction ks as [|[c0 n0] ks IH]; intros b len Hs c n Hin; [destruct Hin|].
  destruct len as [|len]; [discriminate|]. cbn in Hs. injection Hs as H1 H2. destruct Hin as [Hin|Hin].
  - injection Hin as -> ->. subst. rewrite Nat.sub_diag. cbn. split; [reflexivity|lia].
  - destruct (IH (S b) len H2 c n Hin) as [I1 I2]. split; [|lia]. replace (n - b)%nat with (S (n - S b)) by lia. exact I1.
Qed.

Section Same.
Variable k : kind.
Variable F : nat.
Notation dx := (dx_data pg k m).
Notation mx := (mx_data (out F) k m 0).
Notation valid3 t a v := (repr E H m t a v /\ wf_ty E t /\ a + size_of E t <= umod).

Lemma dx_is_mx : forall f, (f <= F)%nat -> forall t a v, valid3 t a v -> (vdepth v < f)%nat -> eqm (dx f t a) (mx f t a).
Proof.
  pose proof (pW_vals (c_machine C)) as HW.
  induction f as [|f IH]; intros Hle t a v (Hr & Hw & Ha) Hf; [lia|]. specialize (IH ltac:(lia)).
  assert (Hrun : forall t a v, repr E H m t a v -> wf_ty E t -> a + size_of E t <= umod -> (vdepth v < f)%nat ->
    exists ss, cl f t a = Some ss /\ eqm (dx f t a) (run_steps k E m 0 a ss)).
  { intros t0 a0 v0 V1 V2 V3 V4. destruct (calls_exist f t0 a0 v0 V1 V2 V3 V4) as [ss Hc]. exists ss. split; [exact Hc|].
    eapply eqm_trans; [exact (IH t0 a0 v0 (conj V1 (conj V2 V3)) V4)|].
    destruct (proj1 (main (out F) k m 0 C HE LO (out_ok F PO) (out_wb F)) t0 a0 v0 V1 V2 V3) as [(ss' & K1 & _ & K3) _].
    rewrite (proj1 (makes_unique (out F) m LO (out_ok F PO)) t0 a0 ss (calls_make F f ltac:(lia) t0 a0 ss Hc) ss' K1). exact (K3 f V4). }
  assert (Hst : forall d size al a s0, steps_ok E m d size al a s0 -> a + size <= umod -> (d <= f)%nat ->
    eqm (dx_steps pg k m (dx f) a s0) (run_steps k E m 0 a (or_panic (expands (cl F) a s0)))).
  { intros d size al a0 s0 Hs Hb Hd.
    destruct (dx_steps_run k (dx f) (cl f) d (fun t a v V1 V2 V3 V4 => Hrun t a v V1 V2 V3 (Nat.lt_le_trans _ _ _ V4 Hd)) size al a0 s0 Hs Hb) as (ss & S1 & S2).
    rewrite (or_some _ _ (expands_mono (cl f) (cl F) (calls_mono f F ltac:(lia)) _ _ _ S1)). exact S2. }
  assert (Hel : forall t vs a, repr_elems E H m t a vs -> wf_ty E t -> a + size_of E t * N.of_nat (length vs) <= umod -> (list_max (map vdepth vs) < f)%nat ->
    eqm (for_elems (length vs) a (size_of E t) (dx f t)) (for_elems (length vs) a (size_of E t) (mx f t))).
  { clear - IH. intros t vs. induction vs as [|v vs IHn]; intros a Hr Hw Ha Hf; [apply eqm_refl|].
    inversion Hr; subst. cbn [length map list_max fold_right for_elems] in *. rewrite Nat2N.inj_succ in Ha.
    change (fold_right Nat.max 0%nat (map vdepth vs)) with (list_max (map vdepth vs)) in Hf.
    apply eqm_bind; [apply (IH t a v); [ands; auto; lia|lia]|intros _; apply IHn; auto; lia]. }
  assert (Hfi : forall fs vs a l n off t, repr_fields E H m fs a vs -> fields_ok E l fs -> (forall o t, In (o, t) fs -> wf_ty E t) -> a + l_size l <= umod ->
    (list_max (map vdepth vs) < f)%nat -> nth_error fs n = Some (off, t) -> exists v, valid3 t (a + off) v /\ (vdepth v < f)%nat).
  { intros fs vs a0 l n off t0 R1 R2 R3 R4 R5 R6. destruct (field_at a0 fs vs R1 n off t0 R6) as (v0 & V1 & V2).
    pose proof (nth_error_In _ _ R6) as Hin. pose proof (fields_inside l fs R2 off t0 Hin). exists v0. ands; auto; [exact (R3 off t0 Hin)|lia|lia]. }
  assert (Hfl : forall fs vs a l, repr_fields E H m fs a vs -> fields_ok E l fs -> (forall o t, In (o, t) fs -> wf_ty E t) -> a + l_size l <= umod ->
    (list_max (map vdepth vs) < f)%nat -> eqm (for_fields fs a (dx f)) (for_fields fs a (mx f))).
  { intros fs vs a0 l R1 R2 R3 R4 R5.
    assert (X : forall n off t, nth_error fs n = Some (off, t) -> eqm (dx f t (a0 + off)) (mx f t (a0 + off))).
    { intros n off t0 R6. destruct (Hfi fs vs a0 l n off t0 R1 R2 R3 R4 R5 R6) as (v0 & V1 & V2). exact (IH t0 _ v0 V1 V2). }
    clear - X. induction fs as [|[off t] fs IHn]; [apply eqm_refl|]. cbn [for_fields].
    apply eqm_bind; [exact (X 0%nat off t eq_refl)|intros _]. apply IHn. intros n. exact (X (S n)). }
  assert (Hex : forall i v fs vs a l, repr_fields E H m fs a vs -> fields_ok E l fs -> (forall o t, In (o, t) fs -> wf_ty E t) -> a + l_size l <= umod ->
    (list_max (map vdepth vs) < f)%nat ->
    (forall ks, generated i v = Some ks -> forall c n off t, In (c, n) ks -> nth_error fs n = Some (off, t) ->
       match c with CSerialize => True | CWith w => proxied pg w t end) ->
    eqm (dx_derived pg k m (dx f) i v fs a) (exec_derived (out F) k m 0 (mx f) i v fs a)).
  { intros i v1 fs vs a0 l R1 R2 R3 R4 R5 HX. unfold dx_derived, exec_derived. destruct (generated i v1) as [ks|]; [|apply eqm_refl].
    apply dx_exec_congr. intros c n off t0 N1 N2. destruct (Hfi fs vs a0 l n off t0 R1 R2 R3 R4 R5 N2) as (v0 & V1 & V2).
    specialize (HX ks eq_refl c n off t0 N1 N2). destruct c as [|w]; cbn [dx_callee callee_run]; [exact (IH t0 _ v0 V1 V2)|].
    destruct DW as [_ D2]. destruct V1 as (V11 & V12 & V13). exact (Hst _ _ _ _ _ (D2 w t0 HX (a0 + off) v0 V11 V13) V13 ltac:(lia)). }
  cbn [dx_data mx_data].
  inversion Hr as [l ok a0 n R1 R2|t0 a0 p v0 R1 R2 R3 R4|vl t0 a0 c p vs R1 R2 R3 R4 R5 R6|vl a0 c p bs R1 R2 R3 R4 R5 R6|t0 n a0 vs R1 R2|l fs a0 vs R1|l d vss a0 j fs vs R1 R2 R3 R4|id d a0 v0 R1 R2]; subst; cbn [vdepth] in Hf.
  - apply eqm_refl.
  - inversion Hw as [|t' Ht HP| | | | | |]; subst. destruct R2 as (Hp0 & Hpa & Hpe). fold (size_of E t0) in Hpe.
    unfold ser_box. change (pr_env (out F)) with E. destruct (size_of E t0 =? 0) eqn:Z; [apply eqm_refl|]. apply eqm_bind; [apply eqm_refl|intros pa].
    apply (eqm_load a p); [exact R1|]. unfold push_and_process.
    apply eqm_bind; [|intros; apply eqm_refl]. apply eqm_pps. apply (IH t0 p v0); [ands; auto; lia|lia].
  - inversion Hw as [| |vl' t' Ht HP| | | | |]; subst. destruct R4 as ((Hp0 & Hpa & Hpe) & _). fold (size_of E t0) in *.
    unfold ser_vec. change (pr_env (out F)) with E. destruct (size_of E t0 =? 0) eqn:Z; [apply eqm_refl|].
    apply (eqm_load _ _ _ _ R3). destruct (N.of_nat (length vs) =? 0); [apply eqm_refl|].
    apply eqm_bind; [apply eqm_refl|intros _]. apply eqm_bind; [apply eqm_refl|intros vo]. apply eqm_bind; [apply eqm_refl|intros pa].
    apply (eqm_load _ _ _ _ R2). apply eqm_bind; [|intros; apply eqm_refl]. apply eqm_pps. rewrite Nat2N.id. apply Hel; auto; lia.
  - apply eqm_refl.
  - inversion Hw as [| | | |t' n' Ht HP| | |]; subst. change (size_of E (TArray t0 (N.of_nat (length vs)))) with (size_of E t0 * N.of_nat (length vs)) in Ha.
    rewrite Nat2N.id. apply Hel; auto; lia.
  - inversion Hw as [| | | | |l' fs' Hg Hf' Hin| |]; subst. apply (Hfl fs vs a l); auto; lia.
  - inversion Hw as [| | | | | |l' d' vss' Hg Hd' Hf' Hin|]; subst. rewrite R1, R2. apply (Hfl fs vs a l); auto; [eapply Hf'; eassumption|intros o t0; eapply Hin; eassumption|lia].
  - assert (HL : layout_of E (TNamed id) = layout_of E d) by (apply (named_size E HE); exact R1).
    destruct (HE id d R1) as [Wd Wk]. pose proof Ha as Ha'. unfold size_of in Ha. rewrite HL in Ha. fold (size_of E d) in Ha.
    pose proof (PO id d R1) as Pk. rewrite impl_out. change (pr_env (out F)) with E. rewrite R1. destruct (impl_for pg id) as [i|h|] eqn:EI; [| |contradiction].
    + inversion Wd as [| | | | |l fs Hg Hf' Hin|l dd vss Hg Hd' Hf' Hin|]; subst; try contradiction.
      * destruct (derived_callees id i _ _ R1 EI) as (dfs & cs & ks & D1 & D2 & D3 & D4 & D5 & D6 & D7).
        inversion R2 as [| | | | |l1 fs1 a1 vs R| |]; subst. cbn [vdepth] in Hf. apply (Hex i None fs vs a l); auto; [lia|].
        intros ks' G c n off t0 N1 N2. rewrite D3 in G. injection G as <-. destruct c as [|w]; [exact Logic.I|].
        destruct (seq_nth ks 0 (length fs) D5 _ _ N1) as [Q _]. rewrite Nat.sub_0_r in Q. exact (D7 n w off t0 Q N2).
      * inversion R2 as [| | | | | |l1 d1 vss1 a1 j fs vs Q1 Q2 Q3 Q4|]; subst. cbn [vdepth] in Hf. rewrite Q1, Q2.
        inversion Pk as [|l' dd' vss' vvs im Hd Hl Hn Hg']; subst.
        apply (Hex i (Some j) fs vs a l); auto; [eapply Hf'; eassumption|intros o t0; eapply Hin; eassumption|lia|].
        intros ks G c n off t0 N1 N2.
        assert (Hx : exists vv, nth_error vvs j = Some vv /\ length (field_list (v_fields vv)) = length fs).
        { clear - Hn Q2. revert j Q2. induction Hn as [|x y l1 l2 Hxy Hr IHn]; intros [|j] Nj; cbn in *; try discriminate.
          - injection Nj as ->. eauto.
          - eauto. }
        destruct Hx as (vv & Hv1 & Hv2). rewrite (enum_generated LO i vvs im j vv Hd Hl Hg' Hv1) in G. injection G as <-.
        apply in_map_iff in N1. destruct N1 as (x & Hx & _). injection Hx as <- _. exact Logic.I.
    + destruct DW as [DW1 _]. exact (Hst _ _ _ _ _ (DW1 id h EI a v Hr Ha') Ha' ltac:(cbn; lia)).
Qed.
End Same.

(** ** The same over any storage *)
Section GRuns.
Context {St : Type}.
Variable R : ra_impl St.
Variable k : kind.
Notation runs := (g_run_steps R k E m 0).

Lemma g_dx_push rec a off l tp n body : g_dx_step R pg k m rec a (SPush off l tp n body) =
  (ad <- addr_from_ref_offset k a off ;;
   g_push_and_process_slice R k (slice_at m l tp n) ad (g_dx_steps R pg k m rec tp body) ;;;
   ret tt).
Proof.
  cbn [g_dx_step]. assert (He : forall ss, (fix go (ss : list step) : M (gz St) unit :=
    match ss with [] => ret tt | s :: ss' => g_dx_step R pg k m rec tp s ;;; go ss' end) ss = g_dx_steps R pg k m rec tp ss).
  { induction ss as [|s ss IH]; [reflexivity|]. cbn [g_dx_steps]. rewrite <- IH. reflexivity. }
  rewrite He. reflexivity.
Qed.
Lemma geq_trans {A} (f g h : M (gz St) A) : geq f g -> geq g h -> geq f h. Proof. intros X Y z. rewrite X. apply Y. Qed.
Lemma geq_sym {A} (f g : M (gz St) A) : geq f g -> geq g f. Proof. intros X z. symmetry. apply X. Qed.
Lemma geq_load {A} a w (f g : N -> M (gz St) A) : read_word m a = Some w -> geq (f w) (g w) ->
  geq (x <- load_word m a ;; f x) (x <- load_word m a ;; g x).
Proof. intros X Y z. unfold bind. rewrite (gload_ok m a w z X). apply Y. Qed.
Lemma g_dx_steps_run rec crec d : (forall t a v, repr E H m t a v -> wf_ty E t -> a + size_of E t <= umod -> (vdepth v < d)%nat ->
    exists ss, crec t a = Some ss /\ geq (rec t a) (runs a ss)) ->
  forall size al a s0, steps_ok E m d size al a s0 -> a + size <= umod ->
    exists ss, expands crec a s0 = Some ss /\ geq (g_dx_steps R pg k m rec a s0) (runs a ss).
Proof.
  intros HR. apply (steps_ok_mut P E m d
    (fun size al a s _ => a + size <= umod -> exists ss, expand crec a s = Some ss /\ geq (g_dx_step R pg k m rec a s) (runs a ss))
    (fun size al a s0 _ => a + size <= umod -> exists ss, expands crec a s0 = Some ss /\ geq (g_dx_steps R pg k m rec a s0) (runs a ss))).
  - intros size al a off l tp n body H1 H2 H3 H4 H5 IH Ha. rewrite expand_push. destruct H4 as (_ & _ & H4).
    destruct (IH H4) as (b & -> & IH'). eexists; split; [reflexivity|]. eapply geq_trans; [|apply geq_sym, (g_runs_one R pg k m 0)].
    rewrite g_dx_push, g_run_push.
    apply geq_bind; [apply geq_refl|intros ad]. apply geq_bind; [|intros; apply geq_refl]. apply geq_pps. exact IH'.
  - intros. eexists; split; [reflexivity|]. apply geq_sym, (g_runs_one R pg k m 0).
  - intros. eexists; split; [reflexivity|]. apply geq_sym, (g_runs_one R pg k m 0).
  - intros. eexists; split; [reflexivity|]. apply geq_sym, (g_runs_one R pg k m 0).
  - intros size al a off t v H1 H2 H3 H4 H5 H6 Ha. cbn [expand]. destruct (HR t (a + off) v H2 H1 ltac:(lia) H3) as (ss & -> & R0).
    eexists; split; [reflexivity|]. cbn [g_dx_step]. rewrite (g_shift_runs R pg k m 0). exact R0.
  - intros. eexists; split; [reflexivity|]. apply geq_sym, (g_runs_one R pg k m 0).
  - intros. eexists; split; [reflexivity|]. apply geq_sym, (g_runs_one R pg k m 0).
  - intros. eexists; split; [reflexivity|]. apply geq_refl.
  - intros size al a s s0 H1 IH1 H2 H3 IH2 Ha. cbn [expands]. destruct (IH1 Ha) as (s1 & -> & X1), (IH2 Ha) as (s2 & -> & X2).
    eexists; split; [reflexivity|]. eapply geq_trans; [|apply geq_sym, (g_runs_app R pg k m 0)].
    cbn [g_dx_steps]. apply geq_bind; [exact X1|intros _; exact X2].
Qed.

Lemma g_dx_exec_congr F rec rec' fs a : forall ks,
  (forall c n off t, In (c, n) ks -> nth_error fs n = Some (off, t) ->
     geq (g_dx_callee R pg k m rec c t (a + off)) (g_callee_run R (out F) k m 0 rec' c t (a + off))) ->
  geq (g_dx_exec R pg k m rec fs a ks) (g_exec R (out F) k m 0 rec' fs a ks).
Proof.
  induction ks as [|[c n] ks IH]; intros HK; [apply geq_refl|]. cbn [g_dx_exec g_exec].
  destruct (nth_error fs n) as [[off t]|] eqn:En; [|apply geq_refl].
  apply geq_bind; [apply (HK c n); [left; reflexivity|exact En]|intros _]. apply IH. intros. eapply HK; [right; eassumption|assumption].
Qed.
End GRuns.
Section GSame.
Context {St : Type}.
Variable R : ra_impl St.
Variable k : kind.
Variable F : nat.
Notation dx := (g_dx_data R pg k m).
Notation mx := (g_mx_data R (out F) k m 0).
Notation valid3 t a v := (repr E H m t a v /\ wf_ty E t /\ a + size_of E t <= umod).

Lemma g_dx_is_mx : forall f, (f <= F)%nat -> forall t a v, valid3 t a v -> (vdepth v < f)%nat -> geq (dx f t a) (mx f t a).
Proof.
  pose proof (pW_vals (c_machine C)) as HW.
  induction f as [|f IH]; intros Hle t a v (Hr & Hw & Ha) Hf; [lia|]. specialize (IH ltac:(lia)).
  assert (Hrun : forall t a v, repr E H m t a v -> wf_ty E t -> a + size_of E t <= umod -> (vdepth v < f)%nat ->
    exists ss, cl f t a = Some ss /\ geq (dx f t a) (g_run_steps R k E m 0 a ss)).
  { intros t0 a0 v0 V1 V2 V3 V4. destruct (calls_exist f t0 a0 v0 V1 V2 V3 V4) as [ss Hc]. exists ss. split; [exact Hc|].
    eapply geq_trans; [exact (IH t0 a0 v0 (conj V1 (conj V2 V3)) V4)|].
    exact (proj1 (proj1 (g_main R (out F) k m 0 C HE LO (out_ok F PO)) t0 a0 v0 V1 V2 V3) ss (calls_make F f ltac:(lia) t0 a0 ss Hc) f V4). }
  assert (Hst : forall d size al a s0, steps_ok E m d size al a s0 -> a + size <= umod -> (d <= f)%nat ->
    geq (g_dx_steps R pg k m (dx f) a s0) (g_run_steps R k E m 0 a (or_panic (expands (cl F) a s0)))).
  { intros d size al a0 s0 Hs Hb Hd.
    destruct (g_dx_steps_run R k (dx f) (cl f) d (fun t a v V1 V2 V3 V4 => Hrun t a v V1 V2 V3 (Nat.lt_le_trans _ _ _ V4 Hd)) size al a0 s0 Hs Hb) as (ss & S1 & S2).
    rewrite (or_some _ _ (expands_mono (cl f) (cl F) (calls_mono f F ltac:(lia)) _ _ _ S1)). exact S2. }
  assert (Hel : forall t vs a, repr_elems E H m t a vs -> wf_ty E t -> a + size_of E t * N.of_nat (length vs) <= umod -> (list_max (map vdepth vs) < f)%nat ->
    geq (g_for_elems (length vs) a (size_of E t) (dx f t)) (g_for_elems (length vs) a (size_of E t) (mx f t))).
  { clear - IH. intros t vs. induction vs as [|v vs IHn]; intros a Hr Hw Ha Hf; [apply geq_refl|].
    inversion Hr; subst. cbn [length map list_max fold_right g_for_elems] in *. rewrite Nat2N.inj_succ in Ha.
    change (fold_right Nat.max 0%nat (map vdepth vs)) with (list_max (map vdepth vs)) in Hf.
    apply geq_bind; [apply (IH t a v); [ands; auto; lia|lia]|intros _; apply IHn; auto; lia]. }
  assert (Hfi : forall fs vs a l n off t, repr_fields E H m fs a vs -> fields_ok E l fs -> (forall o t, In (o, t) fs -> wf_ty E t) -> a + l_size l <= umod ->
    (list_max (map vdepth vs) < f)%nat -> nth_error fs n = Some (off, t) -> exists v, valid3 t (a + off) v /\ (vdepth v < f)%nat).
  { intros fs vs a0 l n off t0 R1 R2 R3 R4 R5 R6. destruct (field_at a0 fs vs R1 n off t0 R6) as (v0 & V1 & V2).
    pose proof (nth_error_In _ _ R6) as Hin. pose proof (fields_inside l fs R2 off t0 Hin). exists v0. ands; auto; [exact (R3 off t0 Hin)|lia|lia]. }
  assert (Hfl : forall fs vs a l, repr_fields E H m fs a vs -> fields_ok E l fs -> (forall o t, In (o, t) fs -> wf_ty E t) -> a + l_size l <= umod ->
    (list_max (map vdepth vs) < f)%nat -> geq (g_for_fields fs a (dx f)) (g_for_fields fs a (mx f))).
  { intros fs vs a0 l R1 R2 R3 R4 R5.
    assert (X : forall n off t, nth_error fs n = Some (off, t) -> geq (dx f t (a0 + off)) (mx f t (a0 + off))).
    { intros n off t0 R6. destruct (Hfi fs vs a0 l n off t0 R1 R2 R3 R4 R5 R6) as (v0 & V1 & V2). exact (IH t0 _ v0 V1 V2). }
    clear - X. induction fs as [|[off t] fs IHn]; [apply geq_refl|]. cbn [g_for_fields].
    apply geq_bind; [exact (X 0%nat off t eq_refl)|intros _]. apply IHn. intros n. exact (X (S n)). }
  assert (Hex : forall i v fs vs a l, repr_fields E H m fs a vs -> fields_ok E l fs -> (forall o t, In (o, t) fs -> wf_ty E t) -> a + l_size l <= umod ->
    (list_max (map vdepth vs) < f)%nat ->
    (forall ks, generated i v = Some ks -> forall c n off t, In (c, n) ks -> nth_error fs n = Some (off, t) ->
       match c with CSerialize => True | CWith w => proxied pg w t end) ->
    geq (g_dx_derived R pg k m (dx f) i v fs a) (g_exec_derived R (out F) k m 0 (mx f) i v fs a)).
  { intros i v1 fs vs a0 l R1 R2 R3 R4 R5 HX. unfold g_dx_derived, g_exec_derived. destruct (generated i v1) as [ks|]; [|apply geq_refl].
    apply g_dx_exec_congr. intros c n off t0 N1 N2. destruct (Hfi fs vs a0 l n off t0 R1 R2 R3 R4 R5 N2) as (v0 & V1 & V2).
    specialize (HX ks eq_refl c n off t0 N1 N2). destruct c as [|w]; cbn [g_dx_callee g_callee_run]; [exact (IH t0 _ v0 V1 V2)|].
    destruct DW as [_ D2]. destruct V1 as (V11 & V12 & V13). exact (Hst _ _ _ _ _ (D2 w t0 HX (a0 + off) v0 V11 V13) V13 ltac:(lia)). }
  cbn [g_dx_data g_mx_data].
  inversion Hr as [l ok a0 n R1 R2|t0 a0 p v0 R1 R2 R3 R4|vl t0 a0 c p vs R1 R2 R3 R4 R5 R6|vl a0 c p bs R1 R2 R3 R4 R5 R6|t0 n a0 vs R1 R2|l fs a0 vs R1|l d vss a0 j fs vs R1 R2 R3 R4|id d a0 v0 R1 R2]; subst; cbn [vdepth] in Hf.
  - apply geq_refl.
  - inversion Hw as [|t' Ht HP| | | | | |]; subst. destruct R2 as (Hp0 & Hpa & Hpe). fold (size_of E t0) in Hpe.
    unfold g_ser_box. change (pr_env (out F)) with E. destruct (size_of E t0 =? 0) eqn:Z; [apply geq_refl|]. apply geq_bind; [apply geq_refl|intros pa].
    apply (geq_load a p); [exact R1|].
    apply geq_bind; [|intros; apply geq_refl]. apply geq_pps. apply (IH t0 p v0); [ands; auto; lia|lia].
  - inversion Hw as [| |vl' t' Ht HP| | | | |]; subst. destruct R4 as ((Hp0 & Hpa & Hpe) & _). fold (size_of E t0) in *.
    unfold g_ser_vec. change (pr_env (out F)) with E. destruct (size_of E t0 =? 0) eqn:Z; [apply geq_refl|].
    apply (geq_load _ _ _ _ R3). destruct (N.of_nat (length vs) =? 0); [apply geq_refl|].
    apply geq_bind; [apply geq_refl|intros _]. apply geq_bind; [apply geq_refl|intros vo]. apply geq_bind; [apply geq_refl|intros pa].
    apply (geq_load _ _ _ _ R2). apply geq_bind; [|intros; apply geq_refl]. apply geq_pps. rewrite Nat2N.id. apply Hel; auto; lia.
  - apply geq_refl.
  - inversion Hw as [| | | |t' n' Ht HP| | |]; subst. change (size_of E (TArray t0 (N.of_nat (length vs)))) with (size_of E t0 * N.of_nat (length vs)) in Ha.
    rewrite Nat2N.id. apply Hel; auto; lia.
  - inversion Hw as [| | | | |l' fs' Hg Hf' Hin| |]; subst. apply (Hfl fs vs a l); auto; lia.
  - inversion Hw as [| | | | | |l' d' vss' Hg Hd' Hf' Hin|]; subst. rewrite R1, R2. apply (Hfl fs vs a l); auto; [eapply Hf'; eassumption|intros o t0; eapply Hin; eassumption|lia].
  - assert (HL : layout_of E (TNamed id) = layout_of E d) by (apply (named_size E HE); exact R1).
    destruct (HE id d R1) as [Wd Wk]. pose proof Ha as Ha'. unfold size_of in Ha. rewrite HL in Ha. fold (size_of E d) in Ha.
    pose proof (PO id d R1) as Pk. rewrite impl_out. change (pr_env (out F)) with E. rewrite R1. destruct (impl_for pg id) as [i|h|] eqn:EI; [| |contradiction].
    + inversion Wd as [| | | | |l fs Hg Hf' Hin|l dd vss Hg Hd' Hf' Hin|]; subst; try contradiction.
      * destruct (derived_callees id i _ _ R1 EI) as (dfs & cs & ks & D1 & D2 & D3 & D4 & D5 & D6 & D7).
        inversion R2 as [| | | | |l1 fs1 a1 vs R0| |]; subst. cbn [vdepth] in Hf. apply (Hex i None fs vs a l); auto; [lia|].
        intros ks' G c n off t0 N1 N2. rewrite D3 in G. injection G as <-. destruct c as [|w]; [exact Logic.I|].
        destruct (seq_nth ks 0 (length fs) D5 _ _ N1) as [Q _]. rewrite Nat.sub_0_r in Q. exact (D7 n w off t0 Q N2).
      * inversion R2 as [| | | | | |l1 d1 vss1 a1 j fs vs Q1 Q2 Q3 Q4|]; subst. cbn [vdepth] in Hf. rewrite Q1, Q2.
        inversion Pk as [|l' dd' vss' vvs im Hd Hl Hn Hg']; subst.
        apply (Hex i (Some j) fs vs a l); auto; [eapply Hf'; eassumption|intros o t0; eapply Hin; eassumption|lia|].
        intros ks G c n off t0 N1 N2.
        assert (Hx : exists vv, nth_error vvs j = Some vv /\ length (field_list (v_fields vv)) = length fs).
        { clear - Hn Q2. revert j Q2. induction Hn as [|x y l1 l2 Hxy Hr IHn]; intros [|j] Nj; cbn in *; try discriminate.
          - injection Nj as ->. eauto.
          - eauto. }
        destruct Hx as (vv & Hv1 & Hv2). rewrite (enum_generated LO i vvs im j vv Hd Hl Hg' Hv1) in G. injection G as <-.
        apply in_map_iff in N1. destruct N1 as (x & Hx & _). injection Hx as <- _. exact Logic.I.
    + destruct DW as [DW1 _]. exact (Hst _ _ _ _ _ (DW1 id h EI a v Hr Ha') Ha' ltac:(cbn; lia)).
Qed.
End GSame.
End Made.

(** ** What holds of all the calls *)
Section All.
Variable Q : step -> Prop.
Hypothesis Bshift : forall d s, Q s -> Q (shift d s).
Hypothesis Bheader : forall vl dg cap len, Forall Q (header_calls vl dg cap len).
Hypothesis Bpush : forall off l p n ss, n <> 0 -> Forall Q ss -> Q (SPush off l p n ss).
Hypothesis Bplain : forall off l p n, n <> 0 -> Q (SPushPlain off l p n).
Definition all_ofP (rec : ty -> N -> option (list step)) : Prop := forall t a ss, rec t a = Some ss -> Forall Q ss.
Hypothesis Bhand : forall rec id h a ss, all_ofP rec -> impl_for pg id = IHand h -> expands rec a (h m a) = Some ss -> Forall Q ss.
Hypothesis Bwith : forall rec w t a ss, all_ofP rec -> expands rec a (pr_with pg w t m a) = Some ss -> Forall Q ss.

Lemma all_shifts d ss : Forall Q ss -> Forall Q (map (shift d) ss).
Proof. induction 1; cbn [map]; constructor; auto. Qed.
Lemma calls_allP : forall f, all_ofP (cl f).
Proof.
  induction f as [|f IH]; intros t a ss Hc; [discriminate|]. cbn [calls] in Hc.
  assert (Hel : forall t n off a ss, calls_elems pg (cl f) t n off a = Some ss -> Forall Q ss).
  { intros t0 n. induction n as [|n IHn]; intros off a0 s0 Hx; cbn [calls_elems] in Hx; [injection Hx as <-; constructor|].
    apply cat_inv in Hx. destruct Hx as (s1 & s2 & H1 & H2 & ->). apply off_inv in H1. destruct H1 as (s1' & H1 & ->).
    apply Forall_app; split; [apply all_shifts; exact (IH _ _ _ H1)|exact (IHn _ _ _ H2)]. }
  assert (Hfl : forall fs cs a ss, calls_fields pg m (cl f) fs cs a = Some ss -> Forall Q ss).
  { intros fs. induction fs as [|[off t0] fs IHn]; intros [|c cs] a0 s0 Hx; cbn [calls_fields] in Hx; try discriminate; [injection Hx as <-; constructor|].
    apply cat_inv in Hx. destruct Hx as (s1 & s2 & H1 & H2 & ->). apply off_inv in H1. destruct H1 as (s1' & H1 & ->).
    apply Forall_app; split; [apply all_shifts|exact (IHn _ _ _ H2)]. destruct c as [|w]; cbn [calls_field] in H1; [exact (IH _ _ _ H1)|exact (Bwith _ _ _ _ _ IH H1)]. }
  assert (Hva : forall d vss a ss, variant_calls pg m (cl f) d vss a = Some ss -> Forall Q ss).
  { intros d vss a0 s0. unfold variant_calls. destruct (read_discr m a0 d) as [v|]; [|discriminate]. destruct (nth_error vss v) as [fs|]; [|discriminate]. apply Hfl. }
  destruct t as [l ok|t|vl t|vl|t n|l fs|l d vss|id].
  - injection Hc as <-. constructor.
  - destruct (size_of E t =? 0); [injection Hc as <-; constructor|]. destruct (read_word m a) as [p|]; [|discriminate].
    destruct (cl f t p) as [s1|] eqn:E1; [|discriminate]. injection Hc as <-. constructor; [|constructor]. apply Bpush; [discriminate|exact (IH _ _ _ E1)].
  - destruct (size_of E t =? 0); [injection Hc as <-; constructor|]. destruct (read_word m (a + cap_off vl)) as [cap|]; [|discriminate].
    destruct (read_word m (a + ptr_off vl)) as [p|]; [|discriminate]. destruct (read_word m (a + len_off vl)) as [len|]; [|discriminate].
    destruct (N.eqb_spec len 0) as [Z|Z]; [injection Hc as <-; apply Bheader|]. destruct (calls_elems pg (cl f) t (N.to_nat len) 0 p) as [s1|] eqn:E1; [|discriminate].
    injection Hc as <-. apply Forall_app; split; [apply Bheader|]. constructor; [|constructor]. apply Bpush; [exact Z|exact (Hel _ _ _ _ _ E1)].
  - destruct (read_word m (a + cap_off vl)) as [cap|]; [|discriminate].
    destruct (read_word m (a + ptr_off vl)) as [p|]; [|discriminate]. destruct (read_word m (a + len_off vl)) as [len|]; [|discriminate].
    destruct (N.eqb_spec len 0) as [Z|Z]; injection Hc as <-; [apply Bheader|]. apply Forall_app; split; [apply Bheader|]. constructor; [|constructor]. apply Bplain; exact Z.
  - exact (Hel _ _ _ _ _ Hc).
  - exact (Hfl _ _ _ _ Hc).
  - exact (Hva _ _ _ _ Hc).
  - destruct (impl_for pg id) as [i|h|] eqn:EI; [| |discriminate].
    + destruct (E id) as [[]|]; try discriminate.
      * destruct (generated i None); [|discriminate]. exact (Hfl _ _ _ _ Hc).
      * exact (Hva _ _ _ _ Hc).
    + exact (Bhand _ _ _ _ _ IH EI Hc).
Qed.
End All.

Section AllB.
Variable b : step -> bool.
Hypothesis Bshift : forall d s, b (shift d s) = b s.
Hypothesis Bheader : forall vl dg cap len, forallb b (header_calls vl dg cap len) = true.
Hypothesis Bpush : forall off l p n ss, n <> 0 -> forallb b ss = true -> b (SPush off l p n ss) = true.
Hypothesis Bplain : forall off l p n, n <> 0 -> b (SPushPlain off l p n) = true.
Definition all_of (rec : ty -> N -> option (list step)) : Prop := forall t a ss, rec t a = Some ss -> forallb b ss = true.
Hypothesis Bhand : forall rec id h a ss, all_of rec -> impl_for pg id = IHand h -> expands rec a (h m a) = Some ss -> forallb b ss = true.
Hypothesis Bwith : forall rec w t a ss, all_of rec -> expands rec a (pr_with pg w t m a) = Some ss -> forallb b ss = true.
Lemma calls_all : forall f, all_of (cl f).
Proof.
  assert (X : forall ss, forallb b ss = true <-> Forall (fun s => b s = true) ss) by (intros ss; rewrite forallb_forall, Forall_forall; reflexivity).
  assert (Y : forall rec, all_ofP (fun s => b s = true) rec -> all_of rec) by (intros rec HR t a ss Hc; apply X; exact (HR t a ss Hc)).
  intros f. apply Y. apply calls_allP.
  - intros d s Hs. rewrite Bshift. exact Hs.
  - intros. apply X, Bheader.
  - intros off l p n ss Hn Hs. apply Bpush; [exact Hn|apply X; exact Hs].
  - exact Bplain.
  - intros rec id h a ss HR HI Hx. apply X. exact (Bhand rec id h a ss (Y rec HR) HI Hx).
  - intros rec w t a ss HR Hx. apply X. exact (Bwith rec w t a ss (Y rec HR) Hx).
Qed.
End AllB.

(** Programs whose impls are proper ones (GenClientSpec.v) make proper calls. *)
Lemma calls_proper empties : proper_program empties pg m -> forall f t a ss, cl f t a = Some ss -> Forall (proper empties) ss.
Proof.
  intros [PP1 PP2].
  assert (Sh : forall d s, proper empties s -> proper empties (shift d s)) by (intros d [] Hs; exact Hs).
  assert (PA : forall ss, (fix all (ss : list step) : Prop := match ss with [] => True | s :: ss' => proper empties s /\ all ss' end) ss <-> Forall (proper empties) ss).
  { induction ss as [|s ss IH]; [split; [constructor|exact (fun _ => Logic.I)]|]. split.
    - intros [H1 H2]. constructor; [exact H1|]. apply IH. exact H2.
    - intros HF. inversion HF; subst. split; [assumption|]. apply IH. assumption. }
  assert (X : forall rec, all_ofP (proper empties) rec -> forall s0 a ss, Forall (proper empties) s0 -> expands rec a s0 = Some ss -> Forall (proper empties) ss).
  { intros rec HR s0. apply (steps_induct (fun s => forall a ss, proper empties s -> expand rec a s = Some ss -> Forall (proper empties) ss)
      (fun s0 => forall a ss, Forall (proper empties) s0 -> expands rec a s0 = Some ss -> Forall (proper empties) ss)).
    - intros off l tp n body IH a ss. cbn [proper]. intros [P1 P2]. rewrite expand_push.
      destruct (expands rec tp body) as [bb|] eqn:Eb; [|discriminate]. intros Hx; injection Hx as <-. constructor; [|constructor]. cbn [proper]. split; [exact P1|].
      apply PA. apply (IH tp bb); [|exact Eb]. apply PA. exact P2.
    - intros off l tp n a ss Hp Hx. injection Hx as <-. constructor; [exact Hp|constructor].
    - intros l tp n a ss Hp Hx. injection Hx as <-. constructor; [exact Hp|constructor].
    - intros off l d a ss Hp Hx. injection Hx as <-. constructor; [exact Hp|constructor].
    - intros off t v a ss Hp Hx. cbn [expand] in Hx. apply off_inv in Hx. destruct Hx as (s1 & H1 & ->). apply (all_shifts (proper empties) Sh). exact (HR _ _ _ H1).
    - intros o a ss Hp Hx. injection Hx as <-. constructor; [exact Hp|constructor].
    - intros a ss Hp Hx. injection Hx as <-. constructor; [exact Hp|constructor].
    - intros a ss _ Hx. injection Hx as <-. constructor.
    - intros s ss0 I1 I2 a ss Hp Hx. inversion Hp; subst. cbn [expands] in Hx.
      apply cat_inv in Hx. destruct Hx as (s1 & s2 & ? & ? & ->). apply Forall_app; split; [apply (I1 a)|apply (I2 a)]; assumption. }
  apply (calls_allP (proper empties)).
  - exact Sh.
  - intros. unfold header_calls. destruct (cap =? len); [constructor|]. destruct (len =? 0); [|repeat constructor]. destruct vl; repeat constructor.
  - intros off l p n ss Hn Hs. cbn [proper]. split; [unfold plain_slice; lia|]. apply PA. exact Hs.
  - intros off l p n Hn. cbn [proper]. unfold plain_slice. lia.
  - intros rec id h a ss HR HI. apply (X rec HR). eapply PP1. exact HI.
  - intros rec w t a ss HR. apply (X rec HR). apply PP2.
Qed.

Lemma calls_plain : plain_program pg m -> forall f t a ss, cl f t a = Some ss -> forallb plain ss = true.
Proof.
  intros [PP1 PP2].
  assert (X : forall rec, all_of plain rec -> forall s0 a ss, forallb plain s0 = true -> expands rec a s0 = Some ss -> forallb plain ss = true).
  { intros rec HR s0. apply (steps_induct (fun s => forall a ss, plain s = true -> expand rec a s = Some ss -> forallb plain ss = true)
      (fun s0 => forall a ss, forallb plain s0 = true -> expands rec a s0 = Some ss -> forallb plain ss = true)).
    - intros off l tp n body IH a ss. cbn [plain]. intros Hp. apply andb_prop in Hp. destruct Hp as [P1 P2]. rewrite expand_push.
      destruct (expands rec tp body) as [bb|] eqn:Eb; [|discriminate]. intros Hx; injection Hx as <-. cbn [forallb plain]. rewrite P1, (IH _ _ P2 Eb). reflexivity.
    - intros off l tp n a ss Hp Hx. injection Hx as <-. cbn [forallb]. rewrite Hp. reflexivity.
    - intros l tp n a ss Hp Hx. injection Hx as <-. cbn [forallb]. rewrite Hp. reflexivity.
    - intros off l d a ss Hp Hx. injection Hx as <-. reflexivity.
    - intros off t v a ss Hp Hx. cbn [expand] in Hx. apply off_inv in Hx. destruct Hx as (s1 & H1 & ->). rewrite plain_shifts. exact (HR _ _ _ H1).
    - discriminate.
    - discriminate.
    - intros a ss _ Hx. injection Hx as <-. reflexivity.
    - intros s ss0 I1 I2 a ss Hp Hx. cbn [forallb] in Hp. apply andb_prop in Hp. destruct Hp as [P1 P2]. cbn [expands] in Hx.
      apply cat_inv in Hx. destruct Hx as (s1 & s2 & H1 & H2 & ->). rewrite forallb_app, (I1 _ _ P1 H1), (I2 _ _ P2 H2). reflexivity. }
  apply (calls_all plain).
  - intros; apply plain_shift.
  - intros; apply plain_header.
  - intros off l p n ss Hn Hs. cbn [plain]. rewrite Hs. unfold plain_slice. lia.
  - intros off l p n Hn. cbn [plain]. unfold plain_slice. lia.
  - intros rec id h a ss HR HI. apply (X rec HR). eapply PP1. exact HI.
  - intros rec w t a ss HR. apply (X rec HR). apply PP2.
Qed.
Lemma calls_no_fields : forall f t a ss, cl f t a = Some ss -> forallb no_fields ss = true.
Proof.
  assert (X : forall rec, all_of no_fields rec -> forall s0 a ss, expands rec a s0 = Some ss -> forallb no_fields ss = true).
  { intros rec HR s0. apply (steps_induct (fun s => forall a ss, expand rec a s = Some ss -> forallb no_fields ss = true)
      (fun s0 => forall a ss, expands rec a s0 = Some ss -> forallb no_fields ss = true)).
    - intros off l tp n body IH a ss. rewrite expand_push.
      destruct (expands rec tp body) as [bb|] eqn:Eb; [|discriminate]. intros Hx; injection Hx as <-. cbn [forallb no_fields]. rewrite (IH _ _ Eb). reflexivity.
    - intros off l tp n a ss Hx. injection Hx as <-. reflexivity.
    - intros l tp n a ss Hx. injection Hx as <-. reflexivity.
    - intros off l d a ss Hx. injection Hx as <-. reflexivity.
    - intros off t v a ss Hx. cbn [expand] in Hx. apply off_inv in Hx. destruct Hx as (s1 & H1 & ->). rewrite no_fields_shift. exact (HR _ _ _ H1).
    - intros o a ss Hx. injection Hx as <-. reflexivity.
    - intros a ss Hx. injection Hx as <-. reflexivity.
    - intros a ss Hx. injection Hx as <-. reflexivity.
    - intros s ss0 I1 I2 a ss Hx. cbn [expands] in Hx.
      apply cat_inv in Hx. destruct Hx as (s1 & s2 & H1 & H2 & ->). rewrite forallb_app, (I1 _ _ H1), (I2 _ _ H2). reflexivity. }
  apply (calls_all no_fields).
  - intros d s; destruct s; reflexivity.
  - intros; apply no_fields_header.
  - intros off l p n ss Hn Hs. exact Hs.
  - reflexivity.
  - intros rec id h a ss HR HI. apply (X rec HR).
  - intros rec w t a ss HR. apply (X rec HR).
Qed.
End Facts.
