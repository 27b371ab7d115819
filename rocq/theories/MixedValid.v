(** * MixedValid: what a mixed program's output is as a value (C80). *)
From Coq Require Import Arith.
From Verif Require Import Base Types Storage Serializer Serialize Client Spec ClientSpec ArithFacts MemFacts TypeFacts SerMain SerRoot SerProps ClientFacts
  Derive DeriveSpec DeriveFacts Mixed MixedFacts.
From Coq Require Import ZifyBool ZifyNat ZifyN.
Local Open Scope N_scope.

(** ** Specification: the value that comes out *)
Section Turns.
Context {P : Params} {L : Lexer}.
Variable pg : program.
Notation E := (pr_env pg).
(** [by_hand id v v']: the hand-written impl of type [id] is meant to turn [v] into [v'].
    [by_proxy w t v v']: the same for a proxy. *)
Variable by_hand : nat -> val -> val -> Prop.
Variable by_proxy : path -> ty -> val -> val -> Prop.

(** [turns t v v']: [v'] is [v] with the parts implemented by hand turned into what they are meant to be. *)
Inductive turns : ty -> val -> val -> Prop :=
| U_prim l ok v : turns (TPrim l ok) v v
| U_string vl v : turns (TString vl) v v
| U_box t v v' : size_of E t <> 0 -> turns t v v' -> turns (TBox t) (VBox v) (VBox v')
| U_vec vl t vs vs' : size_of E t <> 0 -> turns_all t vs vs' -> turns (TVec vl t) (VVec vs) (VVec vs')
(** Contents that take no space are not visited. *)
| U_box_zst t v : size_of E t = 0 -> turns (TBox t) v v
| U_vec_zst vl t v : size_of E t = 0 -> turns (TVec vl t) v v
| U_array t n vs vs' : turns_all t vs vs' -> turns (TArray t n) (VArray vs) (VArray vs')
| U_struct l fs vs vs' : turns_fields fs (map (fun _ => CSerialize) fs) vs vs' -> turns (TStruct l fs) (VStruct vs) (VStruct vs')
| U_enum l d vss j fs vs vs' :
    nth_error vss j = Some fs -> turns_fields fs (map (fun _ => CSerialize) fs) vs vs' ->
    turns (TEnum l d vss) (VEnum j vs) (VEnum j vs')
| U_hand id h v v' : impl_for pg id = IHand h -> by_hand id v v' -> turns (TNamed id) v v'
| U_derived id i l fs dfs cs vs vs' :
    impl_for pg id = IDerived i -> E id = Some (TStruct l fs) -> i_data i = DStruct dfs ->
    Forall2 wanted (field_list dfs) cs -> turns_fields fs cs vs vs' ->
    turns (TNamed id) (VStruct vs) (VStruct vs')
| U_derived_enum id i l d vss j fs vs vs' :
    impl_for pg id = IDerived i -> E id = Some (TEnum l d vss) -> nth_error vss j = Some fs ->
    turns_fields fs (map (fun _ => CSerialize) fs) vs vs' ->
    turns (TNamed id) (VEnum j vs) (VEnum j vs')
with turns_all : ty -> list val -> list val -> Prop :=
| UA_nil t : turns_all t [] []
| UA_cons t v v' vs vs' : turns t v v' -> turns_all t vs vs' -> turns_all t (v :: vs) (v' :: vs')
with turns_fields : list (N * ty) -> list callee -> list val -> list val -> Prop :=
| UF_nil : turns_fields [] [] [] []
| UF_own off t fs cs v v' vs vs' :
    turns t v v' -> turns_fields fs cs vs vs' -> turns_fields ((off, t) :: fs) (CSerialize :: cs) (v :: vs) (v' :: vs')
| UF_with off t fs w cs v v' vs vs' :
    by_proxy w t v v' -> turns_fields fs cs vs vs' -> turns_fields ((off, t) :: fs) (CWith w :: cs) (v :: vs) (v' :: vs').

Scheme turns_ind2 := Induction for turns Sort Prop
  with turns_all_ind2 := Induction for turns_all Sort Prop
  with turns_fields_ind2 := Induction for turns_fields Sort Prop.
Combined Scheme turns_mind from turns_ind2, turns_all_ind2, turns_fields_ind2.

Variable k : kind.
Variable m : mem.

(** [achieves t ss Q]: wherever its calls have had their effect (ClientSpec.v), the impl has turned the value as meant. *)
Definition achieves (t : ty) (ss : mem -> N -> list step) (Q : val -> val -> Prop) : Prop :=
  forall a v Mo B p cur, repr E any_header m t a v -> a + size_of E t <= umod ->
    region k E m Mo B p a (size_of E t) cur (ss m a) ->
    exists v', Q v v' /\ repr E any_header Mo t (B + p) v'.
Definition all_achieve : Prop :=
  (forall id h, impl_for pg id = IHand h -> achieves (TNamed id) h (by_hand id)) /\
  (forall w t, proxied pg w t -> achieves t (pr_with pg w t) (by_proxy w t)).
End Turns.

(** If nothing by hand changes the value, it is the same. *)
Lemma turns_same {P : Params} {L : Lexer} pg :
  (forall t v v', turns pg (fun _ => eq) (fun _ _ => eq) t v v' -> v = v') /\
  (forall t v v', turns_all pg (fun _ => eq) (fun _ _ => eq) t v v' -> v = v') /\
  (forall fs cs v v', turns_fields pg (fun _ => eq) (fun _ _ => eq) fs cs v v' -> v = v').
Proof.
  apply (turns_mind pg (fun _ => eq) (fun _ _ => eq)
    (fun t v v' _ => v = v') (fun t v v' _ => v = v') (fun fs cs v v' _ => v = v')); intros; congruence.
Qed.

Section Valid.
Context {P : Params} {L : Lexer}.
Variable pg : program.
Variable by_hand : nat -> val -> val -> Prop.
Variable by_proxy : path -> ty -> val -> val -> Prop.
Variable k : kind.
Variable m : mem.
Variable sf : nat.
Notation E := (pr_env pg).
Hypothesis C : cfg_ok.
Hypothesis HE : wf_env E.
Hypothesis LO : lexer_ok.
Hypothesis PO : program_ok pg.
Hypothesis WB : well_behaved pg m sf.
Hypothesis HA : all_achieve pg by_hand by_proxy k m.
Hypothesis HT : tracking k = true.
Notation H := any_header.
Variable Mo : mem.
Variable B : N.
Notation images := (images k E m Mo B).
Notation image := (image k E m Mo B).
Notation region := (region k E m Mo B).
Notation same_bytes := (same_bytes m Mo B).

(** ** Images of parts *)
Lemma step_end_shift d cur s : step_end E cur (shift d s) = step_end E cur s.
Proof. destruct s; reflexivity. Qed.
Lemma image_shift d p a cur s : image p a cur (shift d s) -> image (p + d) (a + d) cur s.
Proof.
  clear HT. assert (SB : forall off n, same_bytes p a (d + off) n -> same_bytes (p + d) (a + d) off n).
  { intros off n HS i H1 H2. replace (p + d + i) with (p + (d + i)) by lia. replace (a + d + i) with (a + (d + i)) by lia. apply HS; lia. }
  assert (PT : forall off l n q, points k m Mo B p a (d + off) l n q -> points k m Mo B (p + d) (a + d) off l n q).
  { intros off l n q. unfold points. destruct (tracking k); [|apply SB]. replace (p + d + off) with (p + (d + off)) by lia. auto. }
  intros HI. destruct s; cbn [shift] in HI; inversion HI; subst; constructor; auto.
  - intros HK i Hi. replace (p + d + off + i) with (p + (d + off) + i) by lia. auto.
  - intros HK. rewrite <- N.add_assoc. auto.
  - intros f Hf. rewrite <- N.add_assoc. auto.
Qed.
Lemma images_shift d p a : forall ss cur, images p a cur (map (shift d) ss) -> images (p + d) (a + d) cur ss.
Proof.
  clear HT. induction ss as [|s ss IH]; intros cur HI; [constructor|]. cbn [map] in HI. inversion HI; subst. constructor.
  - apply image_shift. assumption.
  - rewrite step_end_shift in *. apply IH. assumption.
Qed.
Lemma images_app p a : forall s1 s2 cur, images p a cur (s1 ++ s2) -> images p a cur s1 /\ images p a (steps_end E cur s1) s2.
Proof.
  induction s1 as [|s s1 IH]; intros s2 cur HI; [split; [constructor|exact HI]|].
  cbn [app] in HI. inversion HI; subst. destruct (IH s2 _ ltac:(eassumption)) as [I1 I2]. split; [constructor; assumption|exact I2].
Qed.

(** Bytes [off, off + n) are those of the input, except for what the calls [ss] are for. *)
Definition kept (p a off n : N) (ss : list step) : Prop :=
  forall i, off <= i -> i < off + n -> (forall s, In s ss -> ~ touched E s i) -> Mo (B + (p + i)) = m (a + i).

Lemma part_region p a cur off sz s1 rest al :
  steps_ok E m sf sz al (a + off) s1 ->
  images p a cur (map (shift off) s1) -> kept p a off sz (map (shift off) s1 ++ rest) ->
  (forall s i, In s rest -> touched E s i -> ~ (off <= i /\ i < off + sz)) ->
  region (p + off) (a + off) sz cur s1.
Proof.
  clear HT. intros Hs HI HK HR. constructor; [|apply images_shift; exact HI].
  intros i Hi Hn. replace (p + off + i) with (p + (off + i)) by lia. replace (a + off + i) with (a + (off + i)) by lia.
  apply HK; [lia|lia|]. intros s Hin T. apply in_app_or in Hin. destruct Hin as [Hin|Hin].
  - apply in_map_iff in Hin. destruct Hin as (s0 & <- & Hin). apply shift_touched in T. destruct T as [_ T].
    replace (off + i - off) with i in T by lia. exact (Hn s0 Hin T).
  - apply (HR s (off + i) Hin T). lia.
Qed.
Lemma same_word p a off w : same_bytes p a off pW -> read_word m (a + off) = Some w -> read_word Mo (B + (p + off)) = Some w.
Proof.
  intros HS Hr. rewrite <- Hr. apply read_word_ext. intros i Hi.
  replace (B + (p + off) + i) with (B + (p + (off + i))) by lia. replace (a + off + i) with (a + (off + i)) by lia. apply HS; lia.
Qed.
Lemma same_sub p a off n off' n' : same_bytes p a off n -> off <= off' -> off' + n' <= off + n -> same_bytes p a off' n'.
Proof. intros HS H1 H2 i Hi1 Hi2. apply HS; lia. Qed.

Lemma header_image vl dangle cap len p a cur :
  images p a cur (header_calls vl dangle cap len) -> len < umod -> dangle < umod ->
  header_calls vl dangle cap len = [] \/
  (len <> 0 /\ (read_word Mo (B + (p + cap_off vl)) = Some len \/ same_bytes p a (cap_off vl) pW)) \/
  (len = 0 /\ (read_word Mo (B + (p + cap_off vl)) = Some 0 /\ read_word Mo (B + (p + ptr_off vl)) = Some dangle \/
               same_bytes p a (cap_off vl) pW /\ same_bytes p a (ptr_off vl) pW)).
Proof.
  intros HI Hl Hd. pose proof (pW_vals (c_machine C)) as HW.
  assert (KC : k = Complete \/ k <> Complete) by (destruct k; auto; right; discriminate).
  assert (K0 : 0 < umod) by lia.
  unfold header_calls in *. destruct (cap =? len); [auto|]. destruct (N.eqb_spec len 0) as [->|NZ].
  - right; right. split; [reflexivity|].
    assert (Two : forall x y off, x < umod -> y < umod -> image p a cur (SOver off two_words_layout (two_words x y)) ->
      (read_word Mo (B + (p + off)) = Some x /\ read_word Mo (B + (p + (off + pW))) = Some y) \/ same_bytes p a off (2 * pW)).
    { intros x y off Hx Hy HO. inversion HO as [| | |? ? ? ? ? ? I1 I2| |]; subst. destruct KC as [KC|KC]; [left|right; exact (I2 KC)].
      specialize (I1 KC). cbn [two_words_layout l_size] in I1. split; apply read_word_src; auto; intros i Hi.
      - replace (B + (p + off) + i) with (B + (p + off + i)) by lia. rewrite I1 by lia. apply (two_words_lo_hi x y i Hi).
      - replace (B + (p + (off + pW)) + i) with (B + (p + off + (pW + i))) by lia. rewrite I1 by lia. apply (two_words_lo_hi x y i Hi). }
    assert (One : forall x off cur, x < umod -> image p a cur (SOver off usize_layout (word_src x)) ->
      (k = Complete /\ read_word Mo (B + (p + off)) = Some x) \/ (k <> Complete /\ same_bytes p a off pW)).
    { intros x off cu Hx HO. inversion HO as [| | |? ? ? ? ? ? I1 I2| |]; subst. destruct KC as [KC|KC]; [left|right; split; [exact KC|exact (I2 KC)]].
      split; [exact KC|]. specialize (I1 KC). cbn [usize_layout l_size] in I1. apply read_word_src; auto. intros i Hi.
      replace (B + (p + off) + i) with (B + (p + off + i)) by lia. apply I1. exact Hi. }
    destruct vl; cbn [emptied] in HI; inversion HI as [|? ? ? ? ? I1 I2]; subst.
    1,3,5,6: apply Two in I1; [|lia|lia]; unfold cap_off, ptr_off; cbn [cap_ix ptr_ix];
      rewrite ?N.mul_0_l, ?N.mul_1_l, ?N.add_0_l in *; replace (2 * pW) with (pW + pW) in * by lia;
      destruct I1 as [[J1 J2]|J]; [left; split; assumption|right; split; eapply same_sub; try exact J; lia].
    1,2: apply One in I1; [|lia]; inversion I2 as [|? ? ? ? ? I3 I4]; subst; apply One in I3; [|lia];
      destruct I1 as [[J1 J2]|[J1 J2]], I3 as [[J3 J4]|[J3 J4]]; try contradiction; auto.
  - right; left. split; [exact NZ|]. inversion HI as [|? ? ? ? ? I1 I2]; subst. inversion I1 as [| | |? ? ? ? ? ? I3 I4| |]; subst.
    destruct KC as [KC|KC]; [left|right; exact (I4 KC)]. specialize (I3 KC). cbn [usize_layout l_size] in I3.
    apply read_word_src; auto. intros i Hi. replace (B + (p + cap_off vl) + i) with (B + (p + cap_off vl + i)) by lia. apply I3. exact Hi.
Qed.

(** ** The calls of parts are proper (MixedFacts.v), whichever they are *)
Notation size t := (size_of E t).
Lemma ok_of t a v ss : repr E H m t a v -> wf_ty E t -> a + size t <= umod -> makes pg m t a ss ->
  steps_ok E m sf (size t) (align_of E t) a ss.
Proof.
  intros Hr Hw Ha Hm. destruct (proj1 (main pg k m sf C HE LO PO WB) t a v Hr Hw Ha) as [(ss' & K1 & K2 & _) _].
  rewrite (proj1 (makes_unique pg m LO PO) t a ss Hm ss' K1). exact K2.
Qed.
Definition in_fields (fs : list (N * ty)) (ss : list step) : Prop :=
  forall s i, In s ss -> touched E s i -> exists off t, In (off, t) fs /\ off <= i /\ i < off + size t.
Lemma fields_of fs a vs l cs ss : repr_fields E H m fs a vs -> fields_ok E l fs -> good_layout l -> (forall o t, In (o, t) fs -> wf_ty E t) ->
  a + l_size l <= umod -> length cs = length fs ->
  (forall n w off t, nth_error cs n = Some (CWith w) -> nth_error fs n = Some (off, t) -> proxied pg w t) ->
  makes_fields pg m fs cs a ss -> in_fields fs ss.
Proof.
  intros Hr H1 H2 H3 H4 H5 H6 Hm.
  destruct (proj2 (proj2 (main pg k m sf C HE LO PO WB)) fs a vs Hr) as [G _].
  destruct (G l cs H1 H2 H3 H4 H5 H6) as (ss' & K1 & _ & K3 & _).
  rewrite (proj2 (proj2 (makes_unique pg m LO PO)) fs cs a ss Hm ss' K1). exact K3.
Qed.
Lemma elems_of t a vs ss b off : repr_elems E H m t a vs -> wf_ty E t -> a = b + off -> (align_of E t | off) ->
  b + off + size t * N.of_nat (length vs) <= umod -> makes_elems pg m t (length vs) off b ss ->
  forall s i, In s ss -> touched E s i -> off <= i.
Proof.
  intros Hr Hw Ha Hd Hb Hm. destruct (proj1 (proj2 (main pg k m sf C HE LO PO WB)) t a vs Hr Hw b off Ha Hd Hb) as (ss' & K1 & _ & K3 & _).
  rewrite (proj1 (proj2 (makes_unique pg m LO PO)) t _ off b ss Hm ss' K1). exact K3.
Qed.

Lemma enum_discr l d vss j fs vs' p a cur ss :
  discr_ok E l vss d -> read_discr m a d = Some j -> nth_error vss j = Some fs ->
  region p a (l_size l) cur ss -> in_fields fs ss -> repr_fields E H Mo fs (B + p) vs' ->
  read_discr Mo (B + p) d = Some j.
Proof.
  intros HD Hr Hj HR HI HV.
  assert (Same : forall off sz, off + sz <= l_size l -> apart E off sz fs ->
    forall i, i < sz -> Mo (B + p + off + i) = m (a + off + i)).
  { intros off sz Hs Hap i Hi. inversion HR as [? ? ? ? ? R1 R2]; subst.
    replace (B + p + off + i) with (B + (p + (off + i))) by lia. rewrite R1; [f_equal; lia|lia|].
    intros s Hin T. destruct (HI s (off + i) Hin T) as (o & t & Ho & T1 & T2). pose proof (Hap o t Ho) as D. unfold disjoint in D. lia. }
  inversion HD as [j0|off sz vals D1 D2|off sz df ns gs o t off' D1 D2 D3 D4 D5 D6 D7]; subst.
  - exact Hr.
  - rewrite <- Hr. apply read_discr_ext. exact (Same off sz D1 (D2 j fs Hj)).
  - destruct (Nat.eq_dec j df) as [->|Hne].
    + assert (gs = fs) by congruence. subst gs. destruct (fields_in E H Mo fs (B + p) vs' o t HV D5) as [v'' Hv''].
      destruct (niche_read E H Mo t off' sz _ D7 _ _ Hv'') as (n & N1 & N2). cbn [read_discr].
      rewrite N.add_assoc, N1. rewrite (assoc_none n ns N2). reflexivity.
    + rewrite <- Hr. apply read_discr_ext. exact (Same _ sz D1 (D3 j fs Hj Hne)).
Qed.

Lemma turns_all_length t vs vs' : turns_all pg by_hand by_proxy t vs vs' -> length vs = length vs'.
Proof. induction 1; cbn; congruence. Qed.

Definition v_fields_goal (fs : list (N * ty)) (a : N) (vs : list val) : Prop :=
  forall l cs ss p cur, fields_ok E l fs -> good_layout l -> (forall o t, In (o, t) fs -> wf_ty E t) -> a + l_size l <= umod ->
  length cs = length fs ->
  (forall n w off t, nth_error cs n = Some (CWith w) -> nth_error fs n = Some (off, t) -> proxied pg w t) ->
  makes_fields pg m fs cs a ss -> images p a cur ss -> (forall o t, In (o, t) fs -> kept p a o (size t) ss) ->
  exists vs', turns_fields pg by_hand by_proxy fs cs vs vs' /\ repr_fields E H Mo fs (B + p) vs'.
Definition v_ty_goal (t : ty) (a : N) (v : val) : Prop :=
  forall ss p cur, makes pg m t a ss -> region p a (size t) cur ss ->
  exists v', turns pg by_hand by_proxy t v v' /\ repr E H Mo t (B + p) v'.
Definition v_parts (t : ty) (a : N) (v : val) : Prop :=
  match t with
  | TStruct l fs => exists vs, v = VStruct vs /\ v_fields_goal fs a vs /\ repr_fields E H m fs a vs
  | TEnum l d vss => exists j fs vs, v = VEnum j vs /\ read_discr m a d = Some j /\ nth_error vss j = Some fs /\ v_fields_goal fs a vs /\ repr_fields E H m fs a vs
  | _ => True
  end.
Definition v_elems_goal (t : ty) (a : N) (vs : list val) : Prop :=
  wf_ty E t -> forall b off ss p cur, a = b + off -> (align_of E t | off) ->
  b + off + size t * N.of_nat (length vs) <= umod ->
  makes_elems pg m t (length vs) off b ss -> images p b cur ss -> kept p b off (size t * N.of_nat (length vs)) ss ->
  exists vs', turns_all pg by_hand by_proxy t vs vs' /\ repr_elems E H Mo t (B + (p + off)) vs'.

(** The fields of a struct, or of the live variant of an enum. *)
Lemma fields_region fs a vs l cs ss p cur :
  v_fields_goal fs a vs -> fields_ok E l fs -> good_layout l -> (forall o t, In (o, t) fs -> wf_ty E t) -> a + l_size l <= umod ->
  length cs = length fs ->
  (forall n w off t, nth_error cs n = Some (CWith w) -> nth_error fs n = Some (off, t) -> proxied pg w t) ->
  makes_fields pg m fs cs a ss -> region p a (l_size l) cur ss ->
  exists vs', turns_fields pg by_hand by_proxy fs cs vs vs' /\ repr_fields E H Mo fs (B + p) vs'.
Proof.
  intros G H1 H2 H3 H4 H5 H6 Hm HR. inversion HR as [? ? ? ? ? R1 R2]; subst.
  apply (G l cs ss p cur); auto. intros o t Hin i Hi1 Hi2 Hn. apply R1; [|exact Hn].
  clear - H1 Hin Hi2. induction H1 as [|off u fs F1 F2 F3 F4 F5 IH]; [destruct Hin|].
  destruct Hin as [Hin|Hin]; [injection Hin as -> ->; lia|auto].
Qed.
Lemma no_proxies {A} (fs : list A) n w (off : N) (t : ty) (X : Prop) : nth_error (map (fun _ => CSerialize) fs) n = Some (CWith w) -> X.
Proof. intros Hn. exfalso. eapply own_proxies. exact Hn. Qed.

Lemma valid :
  (forall t a v, repr E H m t a v -> wf_ty E t -> a + size t <= umod -> v_ty_goal t a v /\ v_parts t a v) /\
  (forall t a vs, repr_elems E H m t a vs -> v_elems_goal t a vs) /\
  (forall fs a vs, repr_fields E H m fs a vs -> v_fields_goal fs a vs).
Proof.
  pose proof (pW_vals (c_machine C)) as HW.
  apply (repr_mut P E H m
    (fun t a v => wf_ty E t -> a + size t <= umod -> v_ty_goal t a v /\ v_parts t a v) v_elems_goal v_fields_goal).
  - intros l ok a n H1 H2 Hw Ha. split; [|exact Logic.I]. intros ss p cur Hm HR. inversion Hm; subst. inversion HR as [? ? ? ? ? R1 R2]; subst.
    exists (VPrim n). split; [constructor|]. apply R_prim; [|exact H2]. rewrite <- H1. apply read_int_ext. intros i Hi.
    replace (B + p + i) with (B + (p + i)) by lia. apply R1; [exact Hi|intros s []].
  - intros t a q v H1 H2 H3 H4 IH Hw Ha. split; [|exact Logic.I]. intros ss p cur Hm HR.
    inversion Hw as [|t' Ht HP| | | | | |]; subst. destruct H2 as (Hp0 & Hpa & Hpe). fold (size t) in Hpe.
    change (size (TBox t)) with pW in *. inversion HR as [? ? ? ? ? R1 R2]; subst.
    inversion Hm as [|t' a' q' ss' NZ Hq Hm'|t' a' Z| | | | | | | | | | |]; subst.
    + assert (q' = q) by congruence. subst q'. inversion R2 as [|? ? ? ? ? I1 I2]; subst. inversion I1 as [? ? ? ? ? ? ? ? J1 J2| | | | |]; subst.
      unfold points in J1. rewrite HT in J1. destruct J1 as [J1 J3]. specialize (J3 ltac:(unfold size_of in *; cbn [l_size u8_layout]; intros; first [discriminate|lia])). rewrite N.add_0_r in J1.
      rewrite N.mul_1_r in J2. destruct (IH Ht ltac:(lia)) as [G _]. destruct (G ss' _ _ Hm' J2) as (v' & U & V).
      exists (VBox v'). split; [apply U_box; assumption|]. apply (R_box _ _ _ _ _ (B + slice_pos cur (layout_of E t))); auto.
    + exists (VBox v). split; [apply U_box_zst; exact Z|]. apply (R_box _ _ _ _ _ q).
      * rewrite <- H1. apply read_word_ext. intros i Hi. replace (B + p + i) with (B + (p + i)) by lia. apply R1; [exact Hi|intros s []].
      * unfold valid_ref. fold (size t). auto.
      * exact Logic.I.
      * eapply zst_repr; eassumption.
  - intros vl t a c q vs H1 H2 H3 H4 H5 H6 IH Hw Ha. split; [|exact Logic.I]. intros ss p cur Hm HR.
    inversion Hw as [| |vl' t' Ht HP| | | | |]; subst.
    pose proof H4 as VO. destruct H4 as ((Hp0 & Hpa & Hpe) & Hc1 & Hc2 & Hc3). fold (size t) in *.
    change (size (TVec vl t)) with (3 * pW) in *. inversion HR as [? ? ? ? ? R1 R2]; subst.
    destruct (vl_offs vl ltac:(lia)) as (V1 & V2 & V3 & V4 & V5 & V6 & V7 & V8 & V9). unfold disjoint in V4, V5, V6.
    pose proof (wf_good C E HE t Ht) as (Gp & Gd & Gs & Gm). fold (size t) in *.
    assert (Ga : l_align (layout_of E t) < umod /\ 0 < l_align (layout_of E t)).
    { pose proof (c_SA_lt_imax C). pose proof (c_MVA_SA C). pose proof (pow2_pos _ Gp). pose proof (c_umod C). lia. }
    assert (Gi : imax < umod) by (pose proof (c_umod C); lia).
    assert (Word : forall off w, off + pW <= 3 * pW -> read_word m (a + off) = Some w ->
      (forall s i, In s ss -> touched E s i -> ~ (off <= i /\ i < off + pW)) -> read_word Mo (B + (p + off)) = Some w).
    { intros off w Ho Hr Hn. eapply same_word; [|exact Hr]. intros i Hi1 Hi2. apply R1; [lia|]. intros s Hin T. apply (Hn s i Hin T). auto. }
    inversion Hm as [| | |vl' t' a' q' cap len ss' NZ Hcap Hq Hlen L0 Hel|vl' t' a' cap NZ Hcap Hlen|vl' t' a' Z| | | | | | | |]; subst.
    + assert (cap = c) by congruence. assert (len = N.of_nat (length vs)) by congruence. assert (q' = q) by congruence. subst.
      destruct (header_ok pg m sf C vl (align_of E t) c (N.of_nat (length vs)) a HP) as [_ HO2]. specialize (HO2 L0).
      apply images_app in R2. destruct R2 as [I1 I2].
      set (cur' := steps_end E cur _) in I2. inversion I2 as [|? ? ? ? ? I3 _]; subst. inversion I3 as [? ? ? ? ? ? ? ? J1 J2| | | | |]; subst.
      unfold points in J1. rewrite HT in J1. destruct J1 as [J1 J3]. specialize (J3 ltac:(unfold size_of in *; cbn [l_size u8_layout]; intros; first [discriminate|lia])).
      inversion J2 as [? ? ? ? ? Q1 Q2]; subst. rewrite Nat2N.id in Hel.
      destruct (IH Ht q 0 ss' _ _ ltac:(lia) ltac:(apply N.divide_0_r) ltac:(lia) Hel Q2) as (vs' & U & V).
      { intros i _ Hi Hn. apply Q1; [fold (size t); lia|exact Hn]. }
      rewrite N.add_0_r in V. pose proof (turns_all_length _ _ _ U) as LL.
      exists (VVec vs'). split; [apply U_vec; assumption|].
      assert (HC : exists c', read_word Mo (B + (p + cap_off vl)) = Some c' /\ (c' = c \/ c' = N.of_nat (length vs))).
      { destruct (header_image vl (align_of E t) c (N.of_nat (length vs)) p a cur I1) as [E0|[[_ [E1|E1]]|[E1 _]]].
        - nia.
        - apply Ga.
        - exists c. split; [|auto]. apply Word; [lia|exact H1|]. rewrite E0. intros s i [<-|[]]. unfold touched; cbn [touch]. lia.
        - eauto.
        - exists c. split; [|auto]. eapply same_word; eassumption.
        - contradiction. }
      destruct HC as (c' & HC1 & HC2).
      apply (R_vec _ _ _ _ _ _ c' (B + slice_pos cur' (layout_of E t))); rewrite <- ?N.add_assoc, <- ?LL; auto.
      * apply Word; [lia|exact H3|]. intros s i Hin T. apply in_app_or in Hin. destruct Hin as [Hin|[<-|[]]].
        -- pose proof (HO2 s i Hin T). lia.
        -- unfold touched in T. cbn [touch] in T. lia.
      * unfold vec_ok. fold (size t). ands; [exact J3| | |].
        -- destruct HC2; subst c'; [exact Hc1|]. rewrite (proj2 (N.eqb_neq _ _) NZ) in *. lia.
        -- destruct HC2; subst c'; [exact Hc2|]. rewrite (proj2 (N.eqb_neq _ _) NZ) in *. lia.
        -- destruct HC2; subst c'; [exact Hc3|]. rewrite (proj2 (N.eqb_neq _ _) NZ) in *. nia.
    + assert (cap = c) by congruence. assert (L0 : N.of_nat (length vs) = 0) by congruence. subst.
      assert (vs = []) as -> by (destruct vs; [reflexivity|cbn in L0; lia]). cbn [length] in *.
      exists (VVec []). split; [apply U_vec; [exact NZ|constructor]|].
      assert (ZR : forall x, x <> 0 -> (l_align (layout_of E t) | x) -> x < umod -> valid_ref (layout_of E t) 0 x).
      { intros x X1 X2 X3. unfold valid_ref. ands; auto. lia. }
      assert (LW : read_word Mo (B + (p + len_off vl)) = Some 0).
      { apply Word; [lia|exact H3|]. intros s i Hin T.
        unfold header_calls in Hin. destruct (c =? 0); [destruct Hin|]. cbn [N.eqb] in Hin.
        unfold cap_off, ptr_off, len_off in *. destruct vl; cbn [emptied cap_ix ptr_ix len_ix] in *; cbn [In] in Hin;
          repeat destruct Hin as [Hin|Hin]; try contradiction; subst s; unfold touched in T; cbn [touch two_words_layout usize_layout l_size] in T;
          unfold cap_off, ptr_off in T; cbn [cap_ix ptr_ix] in T; lia. }
      destruct (header_image vl (align_of E t) c 0 p a cur R2) as [E0|[[E1 _]|[_ [[E1 E2]|[E1 E2]]]]]; [lia|apply Ga| |contradiction| |].
      * rewrite E0 in *. apply (R_vec _ _ _ _ _ _ c q); rewrite <- ?N.add_assoc; auto; try exact Logic.I; try constructor.
      * apply (R_vec _ _ _ _ _ _ 0 (align_of E t)); rewrite <- ?N.add_assoc; auto; try exact Logic.I; try (constructor; fail).
        unfold vec_ok. fold (size t). ands; try lia.
        -- apply ZR; unfold align_of; [lia|apply N.divide_refl|apply Ga].
        -- cbn [length N.of_nat]. lia.
      * apply (R_vec _ _ _ _ _ _ c q); rewrite <- ?N.add_assoc; auto; try exact Logic.I; try (constructor; fail).
        -- eapply same_word; eassumption.
        -- eapply same_word; eassumption.
    + exists (VVec vs). split; [apply U_vec_zst; exact Z|].
      apply (R_vec _ _ _ _ _ _ c q); rewrite <- ?N.add_assoc; auto; try exact Logic.I.
      eapply zst_elems; eassumption.
  - intros vl a c q bs H1 H2 H3 H4 H5 H6 Hw Ha. split; [|exact Logic.I]. intros ss p cur Hm HR.
    inversion Hw as [| | |vl' HP| | | |]; subst.
    pose proof H4 as VO. destruct H4 as ((Hp0 & Hpa & Hpe) & Hc1 & Hc2 & Hc3). cbn [u8_layout l_size l_align] in *.
    change (1 =? 0) with false in Hc2. cbv iota in Hc2.
    change (size (TString vl)) with (3 * pW) in *. inversion HR as [? ? ? ? ? R1 R2]; subst.
    destruct (vl_offs vl ltac:(lia)) as (V1 & V2 & V3 & V4 & V5 & V6 & V7 & V8 & V9). unfold disjoint in V4, V5, V6.
    assert (Gi : imax < umod) by (pose proof (c_umod C); lia). assert (G1 : 1 < umod) by (pose proof (imax_big (c_machine C)); lia).
    assert (Word : forall off w, off + pW <= 3 * pW -> read_word m (a + off) = Some w ->
      (forall s i, In s ss -> touched E s i -> ~ (off <= i /\ i < off + pW)) -> read_word Mo (B + (p + off)) = Some w).
    { intros off w Ho Hr Hn. eapply same_word; [|exact Hr]. intros i Hi1 Hi2. apply R1; [lia|]. intros s Hin T. apply (Hn s i Hin T). auto. }
    exists (VString bs). split; [constructor|].
    inversion Hm as [| | | | | |vl' a' q' cap len Hcap Hq Hlen L0|vl' a' cap Hcap Hlen| | | | | |]; subst.
    + assert (cap = c) by congruence. assert (len = N.of_nat (length bs)) by congruence. assert (q' = q) by congruence. subst.
      destruct (header_ok pg m sf C vl 1 c (N.of_nat (length bs)) a HP) as [_ HO2]. specialize (HO2 L0).
      apply images_app in R2. destruct R2 as [I1 I2].
      set (cur' := steps_end E cur _) in I2. inversion I2 as [|? ? ? ? ? I3 _]; subst. inversion I3 as [|? ? ? ? ? ? ? J1 J2| | | |]; subst.
      unfold points in J1. rewrite HT in J1. destruct J1 as [J1 J3]. specialize (J3 ltac:(unfold size_of in *; cbn [l_size u8_layout]; intros; first [discriminate|lia])).
      assert (HC : exists c', read_word Mo (B + (p + cap_off vl)) = Some c' /\ (c' = c \/ c' = N.of_nat (length bs))).
      { destruct (header_image vl 1 c (N.of_nat (length bs)) p a cur I1) as [E0|[[_ [E1|E1]]|[E1 _]]].
        - lia.
        - exact G1.
        - exists c. split; [|auto]. apply Word; [lia|exact H1|]. rewrite E0. intros s i [<-|[]]. unfold touched; cbn [touch]. lia.
        - eauto.
        - exists c. split; [|auto]. eapply same_word; eassumption.
        - contradiction. }
      destruct HC as (c' & HC1 & HC2).
      apply (R_string _ _ _ _ _ c' (B + slice_pos cur' u8_layout)); rewrite <- ?N.add_assoc; auto; try exact Logic.I.
      * apply Word; [lia|exact H3|]. intros s i Hin T. apply in_app_or in Hin. destruct Hin as [Hin|[<-|[]]].
        -- pose proof (HO2 s i Hin T). lia.
        -- unfold touched in T. cbn [touch] in T. lia.
      * unfold vec_ok. cbn [u8_layout l_size]. change (1 =? 0) with false. cbv iota. ands; [exact J3| | |]; destruct HC2; subst c'; lia.
      * rewrite <- H6. apply read_bytes_ext. intros i Hi. rewrite <- N.add_assoc. apply J2; cbn [u8_layout l_size]; lia.
    + assert (cap = c) by congruence. assert (L0 : N.of_nat (length bs) = 0) by congruence. subst.
      assert (bs = []) as -> by (destruct bs; [reflexivity|cbn in L0; lia]). cbn [length] in *.
      assert (LW : read_word Mo (B + (p + len_off vl)) = Some 0).
      { apply Word; [lia|exact H3|]. intros s i Hin T.
        unfold header_calls in Hin. destruct (c =? 0); [destruct Hin|]. cbn [N.eqb] in Hin.
        unfold cap_off, ptr_off, len_off in *. destruct vl; cbn [emptied cap_ix ptr_ix len_ix] in *; cbn [In] in Hin;
          repeat destruct Hin as [Hin|Hin]; try contradiction; subst s; unfold touched in T; cbn [touch two_words_layout usize_layout l_size] in T;
          unfold cap_off, ptr_off in T; cbn [cap_ix ptr_ix] in T; lia. }
      destruct (header_image vl 1 c 0 p a cur R2) as [E0|[[E1 _]|[_ [[E1 E2]|[E1 E2]]]]]; [lia|exact G1| |contradiction| |].
      * rewrite E0 in *. apply (R_string _ _ _ _ _ c q); rewrite <- ?N.add_assoc; auto; try exact Logic.I.
      * apply (R_string _ _ _ _ _ 0 1); rewrite <- ?N.add_assoc; auto; try exact Logic.I.
        unfold vec_ok, valid_ref. cbn [u8_layout l_size l_align length N.of_nat]. change (1 =? 0) with false. cbv iota. ands; try lia. apply N.divide_refl.
      * apply (R_string _ _ _ _ _ c q); rewrite <- ?N.add_assoc; auto; try exact Logic.I.
        -- eapply same_word; eassumption.
        -- eapply same_word; eassumption.
  - intros t n a vs -> H1 IH Hw Ha. split; [|exact Logic.I]. intros ss p cur Hm HR.
    inversion Hw as [| | | |t' n' Ht HP| | |]; subst. change (size (TArray t (N.of_nat (length vs)))) with (size t * N.of_nat (length vs)) in *.
    inversion HR as [? ? ? ? ? R1 R2]; subst. inversion Hm as [| | | | | | | |t' n' a' ss' Hel| | | | |]; subst. rewrite Nat2N.id in Hel.
    destruct (IH Ht a 0 ss p cur ltac:(lia) ltac:(apply N.divide_0_r) ltac:(lia) Hel R2) as (vs' & U & V).
    { intros i _ Hi Hn. apply R1; [lia|exact Hn]. }
    rewrite N.add_0_r in V. exists (VArray vs'). split; [apply U_array; exact U|]. apply R_array; [|exact V].
    rewrite (turns_all_length _ _ _ U). reflexivity.
  - intros l fs a vs H1 IH Hw Ha. split; [|exists vs; auto]. intros ss p cur Hm HR.
    inversion Hw as [| | | | |l' fs' Hg Hf' Hin| |]; subst. change (size (TStruct l fs)) with (l_size l) in *.
    inversion Hm as [| | | | | | | | |l' fs' a' ss' Hmf| | | |]; subst.
    destruct (fields_region fs a vs l (map (fun _ : N * ty => CSerialize) fs) ss p cur IH Hf' Hg Hin Ha ltac:(apply map_length)) as (vs' & U & V); auto.
    { intros n w off t Hn _. eapply no_proxies; eassumption. }
    exists (VStruct vs'). split; [apply U_struct; exact U|apply R_struct; exact V].
  - intros l d vss a j fs vs H1 H2 H3 IH Hw Ha. split; [|exists j, fs, vs; auto]. intros ss p cur Hm HR.
    inversion Hw as [| | | | | |l' d' vss' Hg Hd' Hf' Hin|]; subst. change (size (TEnum l d vss)) with (l_size l) in *.
    inversion Hm as [| | | | | | | | | |l' d' vss' a' j' fs' ss' Hj Hfs Hmf| | |]; subst.
    assert (j' = j) by congruence. subst. assert (fs' = fs) by congruence. subst.
    assert (NP : forall n w off t, nth_error (map (fun _ : N * ty => CSerialize) fs) n = Some (CWith w) -> nth_error fs n = Some (off, t) -> proxied pg w t).
    { intros n w off t Hn _. eapply no_proxies; eassumption. }
    destruct (fields_region fs a vs l (map (fun _ : N * ty => CSerialize) fs) ss p cur IH (Hf' j fs H2) Hg (fun o t => Hin j fs o t H2) Ha ltac:(apply map_length) NP Hmf HR) as (vs' & U & V).
    pose proof (fields_of fs a vs l (map (fun _ : N * ty => CSerialize) fs) ss H3 (Hf' j fs H2) Hg (fun o t => Hin j fs o t H2) Ha ltac:(apply map_length) NP Hmf) as IF.
    exists (VEnum j vs'). split; [eapply U_enum; eassumption|]. eapply R_enum; [|exact H2|exact V].
    eapply enum_discr; eassumption.
  - intros id d a v H1 H2 IH Hw Ha. split; [|exact Logic.I]. intros ss p cur Hm HR.
    assert (HL : layout_of E (TNamed id) = layout_of E d) by (apply (named_size E HE); exact H1).
    assert (HD : size (TNamed id) = size d) by (unfold size_of; rewrite HL; reflexivity).
    destruct (HE id d H1) as [Wd _]. pose proof Ha as Ha0. rewrite HD in Ha. destruct (IH Wd Ha) as [_ Pt].
    inversion Hm as [| | | | | | | | | | |id' h a' EI|id' i l fs dfs cs a' ss' EI Ed Hd Hcs Hmf|id' i l dd vss j fs a' ss' EI Ed Hj Hfs Hmf]; subst.
    + destruct HA as [HA1 _]. destruct (HA1 id h EI a v Mo B p cur) as (v' & Q & V); auto.
      { econstructor; eassumption. }
      exists v'. split; [eapply U_hand; eassumption|exact V].
    + assert (d = TStruct l fs) by congruence. subst d. rewrite HD in HR. change (size (TStruct l fs)) with (l_size l) in *.
      destruct Pt as (vs & -> & FG & RF). inversion Wd as [| | | | |l' fs' Gl Hf' Hin| |]; subst.
      pose proof (PO id _ H1) as Pk. rewrite EI in Pk. inversion Pk as [l0 fs0 dfs0 im Ed' Hl Hn Hg Hq|]; subst.
      assert (dfs0 = dfs) by congruence. subst dfs0.
      assert (LC : length cs = length fs) by (rewrite <- Hn; symmetry; eapply SerFacts.F2_length; exact Hcs).
      destruct (fields_region fs a vs l cs ss p cur FG Hf' Gl Hin Ha LC) as (vs' & U & V); auto.
      { intros n w off t Hn1 Hn2. assert (Hx : exists f, nth_error (field_list dfs) n = Some f /\ wanted f (CWith w)).
        { clear - Hcs Hn1. revert n Hn1. induction Hcs as [|f c l cs' Hf Hr IH]; intros [|n] Hn1; cbn in *; try discriminate.
          - injection Hn1 as ->. eauto.
          - eauto. }
        destruct Hx as (f & Hnf & Hwf). inversion Hwf; subst. exists id, i, l, fs, dfs, n, f, off. auto 10. }
      exists (VStruct vs'). split; [eapply U_derived; eassumption|]. eapply R_named; [exact H1|]. apply R_struct. exact V.
    + assert (d = TEnum l dd vss) by congruence. subst d. rewrite HD in HR. change (size (TEnum l dd vss)) with (l_size l) in *.
      destruct Pt as (j' & fs' & vs & -> & Rd & Nj & FG & RF). assert (j' = j) by congruence. subst. assert (fs' = fs) by congruence. subst.
      inversion Wd as [| | | | | |l' d' vss' Gl Hd' Hf' Hin|]; subst.
      assert (NP : forall n w off t, nth_error (map (fun _ : N * ty => CSerialize) fs) n = Some (CWith w) -> nth_error fs n = Some (off, t) -> proxied pg w t).
      { intros n w off t Hn _. eapply no_proxies; eassumption. }
      destruct (fields_region fs a vs l (map (fun _ : N * ty => CSerialize) fs) ss p cur FG (Hf' j fs Nj) Gl (fun o t => Hin j fs o t Nj) Ha ltac:(apply map_length) NP Hmf HR) as (vs' & U & V).
      pose proof (fields_of fs a vs l (map (fun _ : N * ty => CSerialize) fs) ss RF (Hf' j fs Nj) Gl (fun o t => Hin j fs o t Nj) Ha ltac:(apply map_length) NP Hmf) as IF.
      exists (VEnum j vs'). split; [eapply U_derived_enum; eassumption|]. eapply R_named; [exact H1|]. eapply R_enum; [|exact Nj|exact V].
      eapply enum_discr; eassumption.
  - intros t a Hw b off ss p cur -> Hd Hb Hm HI HK. exists []. split; constructor.
  - intros t a v vs H1 IH1 H2 IH2 Hw b off ss p cur -> Hd Hb Hm HI HK. cbn [length] in *. rewrite Nat2N.inj_succ in *.
    inversion Hm as [|t' n' off' b' s1 s2 Hm1 Hm2]; subst.
    pose proof (wf_good C E HE t Hw) as (G1 & G2 & G3 & G4). fold (size t) (align_of E t) in *.
    apply images_app in HI. destruct HI as [I1 I2].
    assert (Hd' : (align_of E t | off + size t)) by (apply N.divide_add_r; assumption).
    pose proof (ok_of t (b + off) v s1 H1 Hw ltac:(lia) Hm1) as O1.
    pose proof (elems_of t (b + off + size t) vs s2 b (off + size t) H2 Hw ltac:(lia) Hd' ltac:(lia) Hm2) as O2.
    destruct (IH1 Hw ltac:(lia)) as [G _]. destruct (G s1 (p + off) cur Hm1) as (v' & U & V).
    { eapply (part_region p b cur off (size t) s1 s2); [exact O1|exact I1| |].
      - intros i Hi1 Hi2 Hn. apply HK; [lia|nia|exact Hn].
      - intros s i Hin T. pose proof (O2 s i Hin T). lia. }
    destruct (IH2 Hw b (off + size t) s2 p _ ltac:(lia) Hd' ltac:(lia) Hm2 I2) as (vs' & U' & V').
    { intros i Hi1 Hi2 Hn. apply HK; [lia|lia|]. intros s Hin T. apply in_app_or in Hin. destruct Hin as [Hin|Hin]; [|exact (Hn s Hin T)].
      pose proof (shifts_in pg m sf off s1 _ _ _ O1 s i Hin T). lia. }
    exists (v' :: vs'). split; [constructor; assumption|]. constructor; [exact V|].
    replace (B + (p + off) + size t) with (B + (p + (off + size t))) by lia. exact V'.
  - intros a l cs ss p cur Ho Hg Hin Ha Hl Hp Hm HI HK. destruct cs; [|discriminate]. exists []. split; constructor.
  - intros off t fs a v vs H1 IH1 H2 IH2 l cs ss p cur Ho Hg Hin Ha Hl Hp Hm HI HK.
    inversion Ho as [|off' t' fs' O1 O2 O3 O4 O5]; subst.
    assert (Hw : wf_ty E t) by (eapply Hin; left; reflexivity).
    assert (Rest : forall c cs' s1 s2, cs = c :: cs' -> ss = map (shift off) s1 ++ s2 -> makes_fields pg m fs cs' a s2 ->
      steps_ok E m sf (size t) (align_of E t) (a + off) s1 ->
      region (p + off) (a + off) (size t) cur s1 /\
      exists vs', turns_fields pg by_hand by_proxy fs cs' vs vs' /\ repr_fields E H Mo fs (B + p) vs').
    { intros c cs' s1 s2 -> -> Hm2 K. apply images_app in HI. destruct HI as [I1 I2]. injection Hl as Hl.
      pose proof (fields_of fs a vs l cs' s2 H2 O5 Hg (fun o u Hi => Hin o u (or_intror Hi)) Ha Hl (fun n w o u => Hp (S n) w o u) Hm2) as IF.
      split.
      - eapply (part_region p a cur off (size t) s1 s2); [exact K|exact I1|apply HK; left; reflexivity|].
        intros s i Hi T. destruct (IF s i Hi T) as (o & u & Hou & T1 & T2). pose proof (O4 o u Hou) as D. unfold disjoint in D. lia.
      - apply (IH2 l cs' s2 p (steps_end E cur (map (shift off) s1)) O5 Hg (fun o u Hi => Hin o u (or_intror Hi)) Ha Hl (fun n w o u => Hp (S n) w o u) Hm2 I2).
        intros o u Hou i Hi1 Hi2 Hn. apply (HK o u (or_intror Hou)); [exact Hi1|exact Hi2|].
        intros s Hs T. apply in_app_or in Hs. destruct Hs as [Hs|Hs]; [|exact (Hn s Hs T)].
        pose proof (shifts_in pg m sf off s1 _ _ _ K s i Hs T). pose proof (O4 o u Hou) as D. unfold disjoint in D. lia. }
    inversion Hm as [|off' t' fs' cs' a' s1 s2 Hm1 Hm2|off' t' fs' w cs' a' s2 Hm2]; subst.
    + pose proof (ok_of t (a + off) v s1 H1 Hw ltac:(lia) Hm1) as K.
      destruct (Rest _ _ s1 s2 eq_refl eq_refl Hm2 K) as [RR (vs' & U' & V')].
      destruct (IH1 Hw ltac:(lia)) as [G _]. destruct (G s1 (p + off) cur Hm1 RR) as (v' & U & V).
      exists (v' :: vs'). split; [constructor; assumption|]. constructor; [rewrite <- N.add_assoc; exact V|exact V'].
    + pose proof (Hp O w off t eq_refl eq_refl) as Hpx. destruct WB as [_ WB2].
      pose proof (WB2 w t Hpx (a + off) v H1 ltac:(lia)) as K.
      destruct (Rest _ _ _ s2 eq_refl eq_refl Hm2 K) as [RR (vs' & U' & V')].
      destruct HA as [_ HA2]. destruct (HA2 w t Hpx (a + off) v Mo B (p + off) cur H1 ltac:(lia) RR) as (v' & U & V).
      exists (v' :: vs'). split; [constructor; assumption|]. constructor; [rewrite <- N.add_assoc; exact V|exact V'].
Qed.
End Valid.
