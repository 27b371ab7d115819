(** * MixedDecode: reading a mixed program's output in order, without following pointers (C87). *)
From Coq Require Import Arith.
From Verif Require Import Base Types Storage Serializer Serialize Client Spec ClientSpec ArithFacts MemFacts TypeFacts SerValue SerMain SerRoot SerProps ClientFacts
  Derive DeriveSpec DeriveFacts Mixed MixedFacts MixedValid.
From Coq Require Import ZifyBool ZifyNat ZifyN.
Local Open Scope N_scope.

(** ** Specification *)
Section Decode.
Context {P : Params} {L : Lexer}.
Variable pg : program.
Notation E := (pr_env pg).
(** A reader gets the bytes of the output, the position of the value and the position from which on nothing has been
    read yet; it answers the value and the new such position. *)
Definition reader := mem -> N -> N -> option (val * N).
(** The readers the authors of hand-written impls and of proxies provide. *)
Variable by_type : nat -> reader.
Variable by_path : path -> ty -> reader.
(** How the fields of a derived struct are serialized. *)
Variable plan : nat -> list callee.
Definition plan_ok : Prop := forall id l fs i dfs,
  E id = Some (TStruct l fs) -> impl_for pg id = IDerived i -> i_data i = DStruct dfs -> Forall2 wanted (field_list dfs) (plan id).

Variable M : mem.

Fixpoint dec_callees (dec : ty -> N -> N -> option (val * N)) (fs : list (N * ty)) (cs : list callee) (p cur : N)
  : option (list val * N) :=
  match fs, cs with
  | [], [] => Some ([], cur)
  | (off, t) :: fs', c :: cs' =>
      match (match c with CSerialize => dec t (p + off) cur | CWith w => by_path w t M (p + off) cur end) with
      | Some (v, cur1) =>
          match dec_callees dec fs' cs' p cur1 with
          | Some (vs, cur2) => Some (v :: vs, cur2)
          | None => None
          end
      | None => None
      end
  | _, _ => None
  end.

(** As Spec.decode, but for the types of the program: hand-written ones are left to their readers.  Contents that take no space are in no output and read by Spec.decode. *)
Fixpoint mx_decode (fuel : nat) (t : ty) (p cur : N) : option (val * N) :=
  match fuel with
  | O => None
  | S fuel' =>
      let dec := mx_decode fuel' in
      match t with
      | TPrim l ok =>
          match read_int M p (l_size l) with
          | Some n => if ok n then Some (VPrim n, cur) else None
          | None => None
          end
      | TBox t' =>
          if size_of E t' =? 0
          then omap VBox (decode E M fuel' t' 0 cur)
          else omap VBox (dec t' (push_start cur (layout_of E t')) (push_end cur (layout_of E t') 1))
      | TVec vl t' =>
          match read_word M (p + len_off vl) with
          | Some n =>
              if (size_of E t' =? 0) || (n =? 0)
              then omap VVec (dec_elems (decode E M fuel' t') 0 (N.to_nat n) 0 cur)
              else omap VVec (dec_elems (dec t') (size_of E t') (N.to_nat n)
                                (push_start cur (layout_of E t')) (push_end cur (layout_of E t') n))
          | None => None
          end
      | TString vl =>
          match read_word M (p + len_off vl) with
          | Some n =>
              if n =? 0 then Some (VString [], cur)
              else match read_bytes M (push_start cur u8_layout) (N.to_nat n) with
                   | Some bs => Some (VString bs, push_end cur u8_layout n)
                   | None => None
                   end
          | None => None
          end
      | TArray t' n => omap VArray (dec_elems (dec t') (size_of E t') (N.to_nat n) p cur)
      | TStruct _ fs => omap VStruct (dec_fields dec fs p cur)
      | TEnum _ d vss =>
          match read_discr M p d with
          | Some j =>
              match nth_error vss j with
              | Some fs => omap (VEnum j) (dec_fields dec fs p cur)
              | None => None
              end
          | None => None
          end
      | TNamed id =>
          match impl_for pg id, E id with
          | IHand _, _ => by_type id M p cur
          | IDerived _, Some (TStruct _ fs) => omap VStruct (dec_callees dec fs (plan id) p cur)
          | IDerived _, Some (TEnum _ d vss) =>
              match read_discr M p d with
              | Some j =>
                  match nth_error vss j with
                  | Some fs => omap (VEnum j) (dec_fields dec fs p cur)
                  | None => None
                  end
              | None => None
              end
          | _, _ => None
          end
      end
  end.
(** The value serialized at position [pos]. *)
Definition mx_decode_root (fuel : nat) (t : ty) (pos : N) : option val :=
  match mx_decode fuel t pos (round_up (pos + size_of E t) VA) with
  | Some (v, _) => Some v
  | None => None
  end.
End Decode.

(** [reads_back t ss rd Q]: wherever its calls have had their effect, the reader answers the value as meant ([Q]), and goes on after what the calls pushed. *)
Section ReadsBack.
Context {P : Params} {L : Lexer}.
Variable pg : program.
Notation E := (pr_env pg).
Variable by_hand : nat -> val -> val -> Prop.
Variable by_proxy : path -> ty -> val -> val -> Prop.
Variable by_type : nat -> reader.
Variable by_path : path -> ty -> reader.
Variable k : kind.
Variable m : mem.
Definition reads_back (t : ty) (ss : mem -> N -> list step) (rd : reader) (Q : val -> val -> Prop) : Prop :=
  forall a v Mo B p cur, repr E any_header m t a v -> a + size_of E t <= umod ->
    region k E m Mo B p a (size_of E t) cur (ss m a) ->
    exists v', Q v v' /\ rd (mem_from Mo B) p cur = Some (v', steps_end E cur (ss m a)).
Definition all_read_back : Prop :=
  (forall id h, impl_for pg id = IHand h -> reads_back (TNamed id) h (by_type id) (by_hand id)) /\
  (forall w t, proxied pg w t -> reads_back t (pr_with pg w t) (by_path w t) (by_proxy w t)).
End ReadsBack.

(** ** Proofs *)
Section Valid.
Context {P : Params} {L : Lexer}.
Variable pg : program.
Variable by_hand : nat -> val -> val -> Prop.
Variable by_proxy : path -> ty -> val -> val -> Prop.
Variable by_type : nat -> reader.
Variable by_path : path -> ty -> reader.
Variable plan : nat -> list callee.
Variable k : kind.
Variable m : mem.
Variable sf : nat.
Notation E := (pr_env pg).
Hypothesis C : cfg_ok.
Hypothesis HE : wf_env E.
Hypothesis LO : lexer_ok.
Hypothesis PO : program_ok pg.
Hypothesis WB : well_behaved pg m sf.
Hypothesis HA : all_read_back pg by_hand by_proxy by_type by_path k m.
Hypothesis HP : plan_ok pg plan.
Hypothesis HT : tracking k = false.
Notation H := any_header.
Variable Mo : mem.
Variable B : N.
Notation images := (images k E m Mo B).
Notation image := (image k E m Mo B).
Notation region := (region k E m Mo B).
Notation same_bytes := (same_bytes m Mo B).
Notation kept := (kept pg m Mo B).
Notation size t := (size_of E t).
Notation M := (mem_from Mo B).
Notation dec := (mx_decode pg by_type by_path plan M).

Lemma touched_dec s i : touched E s i \/ ~ touched E s i.
Proof. unfold touched. destruct (touch E s) as [[off n]|]; [|auto]. destruct (N.le_gt_cases off i), (N.lt_ge_cases i (off + n)); try (left; lia); right; lia. Qed.
Lemma touched_by ss i : (exists s, In s ss /\ touched E s i) \/ (forall s, In s ss -> ~ touched E s i).
Proof.
  induction ss as [|s ss IH]; [right; intros s []|]. destruct (touched_dec s i) as [T|T]; [left; exists s; split; [left|]; auto|].
  destruct IH as [(s' & I1 & I2)|IH]; [left; exists s'; split; [right|]; auto|]. right. intros s' [<-|Hin]; auto.
Qed.
(** Nothing in a copy is changed: the calls of these serializers only append. *)
Lemma touched_same p a ss i : forall cur, images p a cur ss -> (exists s, In s ss /\ touched E s i) -> Mo (B + (p + i)) = m (a + i).
Proof.
  induction ss as [|s ss IH]; intros cur HI (s0 & Hin & T); [destruct Hin|].
  inversion HI as [|? ? ? ? ? I1 I2]; subst. destruct Hin as [<-|Hin]; [|eapply IH; eauto].
  assert (KC : k <> Complete) by (intros ->; discriminate HT). clear HI I2.
  inversion I1; subst; unfold touched in T; cbn [touch] in T; try contradiction.
  - match goal with HH : points _ _ _ _ _ _ _ _ _ _ |- _ => unfold points in HH; rewrite HT in HH; apply HH; lia end.
  - match goal with HH : points _ _ _ _ _ _ _ _ _ _ |- _ => unfold points in HH; rewrite HT in HH; apply HH; lia end.
  - match goal with HH : k <> Complete -> _ |- _ => apply (HH KC); lia end.
  - match goal with HH : tracking k = false -> _ |- _ => apply (HH HT); lia end.
Qed.
Lemma region_same p a sz cur ss : region p a sz cur ss -> forall i, i < sz -> M (p + i) = m (a + i).
Proof.
  intros HR i Hi. inversion HR as [? ? ? ? ? R1 R2]; subst. unfold mem_from.
  destruct (touched_by ss i) as [T|T]; [eapply touched_same; eauto|apply R1; auto].
Qed.
Lemma kept_same p a off n cur ss : images p a cur ss -> kept p a off n ss -> forall i, off <= i -> i < off + n -> M (p + i) = m (a + i).
Proof.
  intros HI HK i H1 H2. unfold mem_from. destruct (touched_by ss i) as [T|T]; [eapply touched_same; eauto|apply HK; auto].
Qed.
Lemma word_at_pos p a sz cur ss off w : region p a sz cur ss -> off + pW <= sz -> read_word m (a + off) = Some w -> read_word M (p + off) = Some w.
Proof.
  intros HR Ho Hr. rewrite <- Hr. apply read_word_ext. intros i Hi. rewrite <- !N.add_assoc. eapply region_same; [exact HR|lia].
Qed.

Lemma steps_end_app cur s1 s2 : steps_end E cur (s1 ++ s2) = steps_end E (steps_end E cur s1) s2.
Proof. unfold steps_end. apply fold_left_app. Qed.
Lemma steps_end_shift off : forall ss cur, steps_end E cur (map (shift off) ss) = steps_end E cur ss.
Proof. unfold steps_end. induction ss as [|s ss IH]; intros cur; [reflexivity|]. cbn [map fold_left]. rewrite step_end_shift. apply IH. Qed.
Lemma header_end vl dangle c n cur : steps_end E cur (header_calls vl dangle c n) = cur.
Proof. unfold header_calls. destruct (c =? n); [reflexivity|]. destruct (n =? 0); [destruct vl; reflexivity|reflexivity]. Qed.

Lemma dec_own f fs : forall p cur, dec_callees by_path M f fs (map (fun _ => CSerialize) fs) p cur = dec_fields f fs p cur.
Proof. induction fs as [|[off t] fs IH]; intros p cur; [reflexivity|]. cbn [map dec_callees dec_fields]. destruct (f t (p + off) cur) as [[v c]|]; [|reflexivity]. rewrite IH. reflexivity. Qed.

Definition d_fields_goal (fs : list (N * ty)) (a : N) (vs : list val) : Prop :=
  forall l cs ss p cur, fields_ok E l fs -> good_layout l -> (forall o t, In (o, t) fs -> wf_ty E t) -> a + l_size l <= umod ->
  length cs = length fs ->
  (forall n w off t, nth_error cs n = Some (CWith w) -> nth_error fs n = Some (off, t) -> proxied pg w t) ->
  makes_fields pg m fs cs a ss -> images p a cur ss -> (forall o t, In (o, t) fs -> kept p a o (size t) ss) ->
  exists vs', turns_fields pg by_hand by_proxy fs cs vs vs' /\
    forall f, (list_max (map vdepth vs) < f)%nat -> dec_callees by_path M (dec f) fs cs p cur = Some (vs', steps_end E cur ss).
Definition d_ty_goal (t : ty) (a : N) (v : val) : Prop :=
  forall ss p cur, makes pg m t a ss -> region p a (size t) cur ss ->
  exists v', turns pg by_hand by_proxy t v v' /\
    forall f, (vdepth v < f)%nat -> dec f t p cur = Some (v', steps_end E cur ss).
Definition d_parts (t : ty) (a : N) (v : val) : Prop :=
  match t with
  | TStruct l fs => exists vs, v = VStruct vs /\ d_fields_goal fs a vs /\ repr_fields E H m fs a vs
  | TEnum l d vss => exists j fs vs, v = VEnum j vs /\ read_discr m a d = Some j /\ nth_error vss j = Some fs /\ d_fields_goal fs a vs /\ repr_fields E H m fs a vs
  | _ => True
  end.
Definition d_elems_goal (t : ty) (a : N) (vs : list val) : Prop :=
  wf_ty E t -> forall b off ss p cur, a = b + off -> (align_of E t | off) ->
  b + off + size t * N.of_nat (length vs) <= umod ->
  makes_elems pg m t (length vs) off b ss -> images p b cur ss -> kept p b off (size t * N.of_nat (length vs)) ss ->
  exists vs', turns_all pg by_hand by_proxy t vs vs' /\
    forall f, (list_max (map vdepth vs) < f)%nat -> dec_elems (dec f t) (size t) (length vs) (p + off) cur = Some (vs', steps_end E cur ss).

Lemma d_fields_region fs a vs l cs ss p cur :
  d_fields_goal fs a vs -> fields_ok E l fs -> good_layout l -> (forall o t, In (o, t) fs -> wf_ty E t) -> a + l_size l <= umod ->
  length cs = length fs ->
  (forall n w off t, nth_error cs n = Some (CWith w) -> nth_error fs n = Some (off, t) -> proxied pg w t) ->
  makes_fields pg m fs cs a ss -> region p a (l_size l) cur ss ->
  exists vs', turns_fields pg by_hand by_proxy fs cs vs vs' /\
    forall f, (list_max (map vdepth vs) < f)%nat -> dec_callees by_path M (dec f) fs cs p cur = Some (vs', steps_end E cur ss).
Proof.
  intros G H1 H2 H3 H4 H5 H6 Hm HR. inversion HR as [? ? ? ? ? R1 R2]; subst.
  apply (G l cs ss p cur); auto. intros o t Hin i Hi1 Hi2 Hn. apply R1; [|exact Hn].
  clear - H1 Hin Hi2. induction H1 as [|off u fs F1 F2 F3 F4 F5 IH]; [destruct Hin|].
  destruct Hin as [Hin|Hin]; [injection Hin as -> ->; lia|auto].
Qed.
Lemma discr_inside l vss d : discr_ok E l vss d -> match d with DSingle _ => True | DTag off sz _ | DNiche off sz _ _ => off + sz <= l_size l end.
Proof. intros HD. destruct HD; auto. Qed.
Lemma discr_same l d vss j p a cur ss :
  discr_ok E l vss d -> read_discr m a d = Some j -> region p a (l_size l) cur ss -> read_discr M p d = Some j.
Proof.
  intros HD Hr HR. rewrite <- Hr. apply discr_inside in HD. destruct d; [reflexivity| |];
    (apply read_discr_ext; intros i Hi; rewrite <- !N.add_assoc; eapply region_same; [exact HR|lia]).
Qed.

Lemma decodes :
  (forall t a v, repr E H m t a v -> wf_ty E t -> a + size t <= umod -> d_ty_goal t a v /\ d_parts t a v) /\
  (forall t a vs, repr_elems E H m t a vs -> d_elems_goal t a vs) /\
  (forall fs a vs, repr_fields E H m fs a vs -> d_fields_goal fs a vs).
Proof.
  pose proof (pW_vals (c_machine C)) as HW.
  assert (FU : forall n f, (n < f)%nat -> exists f', f = S f' /\ (n <= f')%nat) by (intros n [|f'] Hf; [lia|exists f'; split; [reflexivity|lia]]).
  apply (repr_mut P E H m
    (fun t a v => wf_ty E t -> a + size t <= umod -> d_ty_goal t a v /\ d_parts t a v) d_elems_goal d_fields_goal).
  - intros l ok a n H1 H2 Hw Ha. split; [|exact Logic.I]. intros ss p cur Hm HR. inversion Hm; subst.
    exists (VPrim n). split; [constructor|]. intros f Hf. destruct (FU _ _ Hf) as (f' & -> & _). cbn [mx_decode].
    assert (R : read_int M p (l_size l) = Some n).
    { rewrite <- H1. apply read_int_ext. intros i Hi. eapply region_same; [exact HR|exact Hi]. }
    rewrite R, H2. reflexivity.
  - intros t a q v H1 H2 H3 H4 IH Hw Ha. split; [|exact Logic.I]. intros ss p cur Hm HR.
    inversion Hw as [|t' Ht HP'| | | | | |]; subst. destruct H2 as (Hp0 & Hpa & Hpe). fold (size t) in Hpe.
    change (size (TBox t)) with pW in *. pose proof HR as HR0. inversion HR as [? ? ? ? ? R1 R2]; subst.
    inversion Hm as [|t' a' q' ss' NZ Hq Hm'|t' a' Z| | | | | | | | | | |]; subst.
    + assert (q' = q) by congruence. subst q'. inversion R2 as [|? ? ? ? ? I1 I2]; subst. inversion I1 as [? ? ? ? ? ? ? ? J1 J2| | | | |]; subst.
      rewrite (slice_pos_sized cur (layout_of E t) NZ), (slice_end_sized cur (layout_of E t) 1 NZ) in J2.
      rewrite N.mul_1_r in J2. destruct (IH Ht ltac:(lia)) as [G _]. destruct (G ss' _ _ Hm' J2) as (v' & U & V).
      exists (VBox v'). split; [apply U_box; assumption|]. intros f Hf. cbn [vdepth] in Hf. destruct (FU _ _ Hf) as (f' & -> & Hf').
      cbn [mx_decode]. rewrite (proj2 (N.eqb_neq _ _) NZ). rewrite V by lia.
      unfold steps_end. cbn [fold_left step_end]. rewrite (slice_end_sized cur (layout_of E t) 1 NZ). reflexivity.
    + exists (VBox v). split; [apply U_box_zst; exact Z|]. intros f Hf. cbn [vdepth] in Hf. destruct (FU _ _ Hf) as (f' & -> & Hf').
      cbn [mx_decode]. rewrite (proj2 (N.eqb_eq _ _) Z). rewrite (proj2 (zst_value C E HE _ _ _ _ _ H4 Ht Z)) by lia. reflexivity.
  - intros vl t a c q vs H1 H2 H3 H4 H5 H6 IH Hw Ha. split; [|exact Logic.I]. intros ss p cur Hm HR.
    inversion Hw as [| |vl' t' Ht HP'| | | | |]; subst.
    destruct H4 as ((Hp0 & Hpa & Hpe) & Hc1 & Hc2 & Hc3). fold (size t) in *.
    change (size (TVec vl t)) with (3 * pW) in *. inversion HR as [? ? ? ? ? R1 R2]; subst.
    destruct (vl_offs vl ltac:(lia)) as (V1 & V2 & V3 & _).
    assert (LW : read_word M (p + len_off vl) = Some (N.of_nat (length vs))) by (eapply word_at_pos; [exact HR|lia|exact H3]).
    inversion Hm as [| | |vl' t' a' q' cap len ss' NZ Hcap Hq Hlen L0 Hel|vl' t' a' cap NZ Hcap Hlen|vl' t' a' Z| | | | | | | |]; subst.
    + assert (len = N.of_nat (length vs)) by congruence. assert (q' = q) by congruence. subst.
      apply images_app in R2. destruct R2 as [I1 I2].
      rewrite header_end in I2. inversion I2 as [|? ? ? ? ? I3 _]; subst. inversion I3 as [? ? ? ? ? ? ? ? J1 J2| | | | |]; subst.
      rewrite (slice_pos_sized cur (layout_of E t) NZ), (slice_end_sized cur (layout_of E t) _ NZ) in J2.
      inversion J2 as [? ? ? ? ? Q1 Q2]; subst. rewrite Nat2N.id in Hel.
      destruct (IH Ht q 0 ss' _ _ ltac:(lia) ltac:(apply N.divide_0_r) ltac:(lia) Hel Q2) as (vs' & U & V).
      { intros i _ Hi Hn. apply Q1; [fold (size t); lia|exact Hn]. }
      rewrite N.add_0_r in V.
      exists (VVec vs'). split; [apply U_vec; assumption|]. intros f Hf. cbn [vdepth] in Hf. destruct (FU _ _ Hf) as (f' & -> & Hf').
      cbn [mx_decode]. rewrite LW, (proj2 (N.eqb_neq _ _) NZ), (proj2 (N.eqb_neq _ _) L0). cbn [orb]. rewrite Nat2N.id, V by lia.
      rewrite steps_end_app, header_end. unfold steps_end. cbn [fold_left step_end].
      rewrite (slice_end_sized cur (layout_of E t) _ NZ). reflexivity.
    + assert (L0 : N.of_nat (length vs) = 0) by congruence.
      assert (vs = []) as -> by (destruct vs; [reflexivity|cbn in L0; lia]). cbn [length] in *.
      exists (VVec []). split; [apply U_vec; [exact NZ|constructor]|]. intros f Hf. destruct (FU _ _ Hf) as (f' & -> & Hf').
      cbn [mx_decode]. rewrite LW. change (N.of_nat 0) with 0. rewrite Bool.orb_true_r. rewrite header_end. reflexivity.
    + exists (VVec vs). split; [apply U_vec_zst; exact Z|]. intros f Hf. cbn [vdepth] in Hf. destruct (FU _ _ Hf) as (f' & -> & Hf').
      cbn [mx_decode]. rewrite LW, (proj2 (N.eqb_eq _ _) Z). cbn [orb]. rewrite Nat2N.id.
      rewrite (zst_value_elems C E HE _ _ _ _ _ H6 Ht Z) by lia. reflexivity.
  - intros vl a c q bs H1 H2 H3 H4 H5 H6 Hw Ha. split; [|exact Logic.I]. intros ss p cur Hm HR.
    change (size (TString vl)) with (3 * pW) in *. inversion HR as [? ? ? ? ? R1 R2]; subst.
    destruct (vl_offs vl ltac:(lia)) as (V1 & V2 & V3 & _).
    assert (LW : read_word M (p + len_off vl) = Some (N.of_nat (length bs))) by (eapply word_at_pos; [exact HR|lia|exact H3]).
    exists (VString bs). split; [constructor|]. intros f Hf. destruct (FU _ _ Hf) as (f' & -> & _). cbn [mx_decode]. rewrite LW.
    inversion Hm as [| | | | | |vl' a' q' cap len Hcap Hq Hlen L0|vl' a' cap Hcap Hlen| | | | | |]; subst.
    + assert (len = N.of_nat (length bs)) by congruence. assert (q' = q) by congruence. subst.
      apply images_app in R2. destruct R2 as [I1 I2].
      rewrite header_end in I2. inversion I2 as [|? ? ? ? ? I3 _]; subst. inversion I3 as [|? ? ? ? ? ? ? J1 J2| | | |]; subst.
      rewrite (proj2 (N.eqb_neq _ _) L0).
      assert (RB : read_bytes M (push_start cur u8_layout) (N.to_nat (N.of_nat (length bs))) = Some bs).
      { rewrite Nat2N.id, <- H6. apply read_bytes_ext. intros i Hi. unfold mem_from. apply J2; cbn [u8_layout l_size]; lia. }
      rewrite RB, steps_end_app, header_end. reflexivity.
    + assert (L0 : N.of_nat (length bs) = 0) by congruence.
      assert (bs = []) as -> by (destruct bs; [reflexivity|cbn in L0; lia]). cbn [length N.of_nat]. change (0 =? 0) with true. cbv iota.
      rewrite header_end. reflexivity.
  - intros t n a vs -> H1 IH Hw Ha. split; [|exact Logic.I]. intros ss p cur Hm HR.
    inversion Hw as [| | | |t' n' Ht HP'| | |]; subst. change (size (TArray t (N.of_nat (length vs)))) with (size t * N.of_nat (length vs)) in *.
    inversion HR as [? ? ? ? ? R1 R2]; subst. inversion Hm as [| | | | | | | |t' n' a' ss' Hel| | | | |]; subst. rewrite Nat2N.id in Hel.
    destruct (IH Ht a 0 ss p cur ltac:(lia) ltac:(apply N.divide_0_r) ltac:(lia) Hel R2) as (vs' & U & V).
    { intros i _ Hi Hn. apply R1; [lia|exact Hn]. }
    rewrite N.add_0_r in V. exists (VArray vs'). split; [apply U_array; exact U|]. intros f Hf. cbn [vdepth] in Hf. destruct (FU _ _ Hf) as (f' & -> & Hf').
    cbn [mx_decode]. rewrite Nat2N.id, V by lia. reflexivity.
  - intros l fs a vs H1 IH Hw Ha. split; [|exists vs; auto]. intros ss p cur Hm HR.
    inversion Hw as [| | | | |l' fs' Hg Hf' Hin| |]; subst. change (size (TStruct l fs)) with (l_size l) in *.
    inversion Hm as [| | | | | | | | |l' fs' a' ss' Hmf| | | |]; subst.
    destruct (d_fields_region fs a vs l (map (fun _ : N * ty => CSerialize) fs) ss p cur IH Hf' Hg Hin Ha ltac:(apply map_length)) as (vs' & U & V); auto.
    { intros n w off t Hn _. eapply no_proxies; eassumption. }
    exists (VStruct vs'). split; [apply U_struct; exact U|]. intros f Hf. cbn [vdepth] in Hf. destruct (FU _ _ Hf) as (f' & -> & Hf0).
    cbn [mx_decode]. rewrite <- dec_own, V by lia. reflexivity.
  - intros l d vss a j fs vs H1 H2 H3 IH Hw Ha. split; [|exists j, fs, vs; auto]. intros ss p cur Hm HR.
    inversion Hw as [| | | | | |l' d' vss' Hg Hd' Hf' Hin|]; subst. change (size (TEnum l d vss)) with (l_size l) in *.
    inversion Hm as [| | | | | | | | | |l' d' vss' a' j' fs' ss' Hj Hfs Hmf| | |]; subst.
    assert (j' = j) by congruence. subst. assert (fs' = fs) by congruence. subst.
    assert (NP : forall n w off t, nth_error (map (fun _ : N * ty => CSerialize) fs) n = Some (CWith w) -> nth_error fs n = Some (off, t) -> proxied pg w t).
    { intros n w off t Hn _. eapply no_proxies; eassumption. }
    destruct (d_fields_region fs a vs l (map (fun _ : N * ty => CSerialize) fs) ss p cur IH (Hf' j fs H2) Hg (fun o t => Hin j fs o t H2) Ha ltac:(apply map_length) NP Hmf HR) as (vs' & U & V).
    exists (VEnum j vs'). split; [eapply U_enum; eassumption|]. intros f Hf. cbn [vdepth] in Hf. destruct (FU _ _ Hf) as (f' & -> & Hf0).
    cbn [mx_decode]. rewrite (discr_same l d vss j p a cur ss Hd' Hj HR), H2, <- dec_own, V by lia. reflexivity.
  - intros id d a v H1 H2 IH Hw Ha. split; [|exact Logic.I]. intros ss p cur Hm HR.
    assert (HL : layout_of E (TNamed id) = layout_of E d) by (apply (named_size E HE); exact H1).
    assert (HD : size (TNamed id) = size d) by (unfold size_of; rewrite HL; reflexivity).
    destruct (HE id d H1) as [Wd _]. pose proof Ha as Ha0. rewrite HD in Ha. destruct (IH Wd Ha) as [_ Pt].
    inversion Hm as [| | | | | | | | | | |id' h a' EI|id' i l fs dfs cs a' ss' EI Ed Hd Hcs Hmf|id' i l dd vss j fs a' ss' EI Ed Hj Hfs Hmf]; subst.
    + destruct HA as [HA1 _]. destruct (HA1 id h EI a v Mo B p cur) as (v' & Q & V); auto.
      { econstructor; eassumption. }
      exists v'. split; [eapply U_hand; eassumption|]. intros f Hf. destruct (FU _ _ Hf) as (f' & -> & _). cbn [mx_decode]. rewrite EI. exact V.
    + assert (d = TStruct l fs) by congruence. subst d. rewrite HD in HR. change (size (TStruct l fs)) with (l_size l) in *.
      destruct Pt as (vs & -> & FG & RF). inversion Wd as [| | | | |l' fs' Gl Hf' Hin| |]; subst.
      pose proof (PO id _ H1) as Pk. rewrite EI in Pk. inversion Pk as [l0 fs0 dfs0 im Ed' Hl Hn Hg Hq|]; subst.
      assert (dfs0 = dfs) by congruence. subst dfs0.
      assert (LC : length cs = length fs) by (rewrite <- Hn; symmetry; eapply SerFacts.F2_length; exact Hcs).
      destruct (d_fields_region fs a vs l cs ss p cur FG Hf' Gl Hin Ha LC) as (vs' & U & V); auto.
      { intros n w off t Hn1 Hn2. assert (Hx : exists f, nth_error (field_list dfs) n = Some f /\ wanted f (CWith w)).
        { clear - Hcs Hn1. revert n Hn1. induction Hcs as [|f c l cs' Hf Hr IH]; intros [|n] Hn1; cbn in *; try discriminate.
          - injection Hn1 as ->. eauto.
          - eauto. }
        destruct Hx as (f & Hnf & Hwf). inversion Hwf; subst. exists id, i, l, fs, dfs, n, f, off. auto 10. }
      assert (plan id = cs) as PE by (eapply (wanted_unique pg LO PO); [exact EI|exact H1|exact Hd|exact (HP id l fs i dfs H1 EI Hd)|exact Hcs]).
      exists (VStruct vs'). split; [eapply U_derived; eassumption|]. intros f Hf. cbn [vdepth] in Hf. destruct (FU _ _ Hf) as (f' & -> & Hf0).
      cbn [mx_decode]. rewrite EI, H1, PE, V by lia. reflexivity.
    + assert (d = TEnum l dd vss) by congruence. subst d. rewrite HD in HR. change (size (TEnum l dd vss)) with (l_size l) in *.
      destruct Pt as (j' & fs' & vs & -> & Rd & Nj & FG & RF). assert (j' = j) by congruence. subst. assert (fs' = fs) by congruence. subst.
      inversion Wd as [| | | | | |l' d' vss' Gl Hd' Hf' Hin|]; subst.
      assert (NP : forall n w off t, nth_error (map (fun _ : N * ty => CSerialize) fs) n = Some (CWith w) -> nth_error fs n = Some (off, t) -> proxied pg w t).
      { intros n w off t Hn _. eapply no_proxies; eassumption. }
      destruct (d_fields_region fs a vs l (map (fun _ : N * ty => CSerialize) fs) ss p cur FG (Hf' j fs Nj) Gl (fun o t => Hin j fs o t Nj) Ha ltac:(apply map_length) NP Hmf HR) as (vs' & U & V).
      exists (VEnum j vs'). split; [eapply U_derived_enum; eassumption|]. intros f Hf. cbn [vdepth] in Hf. destruct (FU _ _ Hf) as (f' & -> & Hf0).
      cbn [mx_decode]. rewrite EI, H1, (discr_same l dd vss j p a cur ss Hd' Hj HR), Nj, <- dec_own, V by lia. reflexivity.
  - intros t a Hw b off ss p cur -> Hd Hb Hm HI HK. cbn [length] in Hm. inversion Hm; subst. exists []. split; [constructor|]. reflexivity.
  - intros t a v vs H1 IH1 H2 IH2 Hw b off ss p cur -> Hd Hb Hm HI HK. cbn [length] in *. rewrite Nat2N.inj_succ in *.
    inversion Hm as [|t' n' off' b' s1 s2 Hm1 Hm2]; subst.
    pose proof (wf_good C E HE t Hw) as (G1 & G2 & G3 & G4). fold (size t) (align_of E t) in *.
    apply images_app in HI. destruct HI as [I1 I2].
    assert (Hd' : (align_of E t | off + size t)) by (apply N.divide_add_r; assumption).
    pose proof (ok_of pg k m sf C HE LO PO WB t (b + off) v s1 H1 Hw ltac:(lia) Hm1) as O1.
    pose proof (elems_of pg k m sf C HE LO PO WB t (b + off + size t) vs s2 b (off + size t) H2 Hw ltac:(lia) Hd' ltac:(lia) Hm2) as O2.
    destruct (IH1 Hw ltac:(lia)) as [G _]. destruct (G s1 (p + off) cur Hm1) as (v' & U & V).
    { eapply (part_region pg k m sf Mo B p b cur off (size t) s1 s2); [exact O1|exact I1| |].
      - intros i Hi1 Hi2 Hn. apply HK; [lia|nia|exact Hn].
      - intros s i Hin T. pose proof (O2 s i Hin T). lia. }
    rewrite steps_end_shift in I2.
    destruct (IH2 Hw b (off + size t) s2 p _ ltac:(lia) Hd' ltac:(lia) Hm2 I2) as (vs' & U' & V').
    { intros i Hi1 Hi2 Hn. apply HK; [lia|lia|]. intros s Hin T. apply in_app_or in Hin. destruct Hin as [Hin|Hin]; [|exact (Hn s Hin T)].
      pose proof (shifts_in pg m sf off s1 _ _ _ O1 s i Hin T). lia. }
    exists (v' :: vs'). split; [constructor; assumption|]. intros f Hf. cbn [map] in Hf. rewrite list_max_cons in Hf.
    cbn [dec_elems]. rewrite V by lia. rewrite <- N.add_assoc, V' by lia. rewrite steps_end_app, steps_end_shift. reflexivity.
  - intros a l cs ss p cur Ho Hg Hin Ha Hl Hp Hm HI HK. destruct cs; [|discriminate]. inversion Hm; subst. exists []. split; [constructor|]. reflexivity.
  - intros off t fs a v vs H1 IH1 H2 IH2 l cs ss p cur Ho Hg Hin Ha Hl Hp Hm HI HK.
    inversion Ho as [|off' t' fs' O1 O2 O3 O4 O5]; subst.
    assert (Hw : wf_ty E t) by (eapply Hin; left; reflexivity).
    assert (Rest : forall c cs' s1 s2, cs = c :: cs' -> ss = map (shift off) s1 ++ s2 -> makes_fields pg m fs cs' a s2 ->
      steps_ok E m sf (size t) (align_of E t) (a + off) s1 ->
      region (p + off) (a + off) (size t) cur s1 /\
      exists vs', turns_fields pg by_hand by_proxy fs cs' vs vs' /\
        forall f, (list_max (map vdepth vs) < f)%nat -> dec_callees by_path M (dec f) fs cs' p (steps_end E cur s1) = Some (vs', steps_end E (steps_end E cur s1) s2)).
    { intros c cs' s1 s2 -> -> Hm2 K. apply images_app in HI. destruct HI as [I1 I2]. injection Hl as Hl.
      pose proof (fields_of pg k m sf C HE LO PO WB fs a vs l cs' s2 H2 O5 Hg (fun o u Hi => Hin o u (or_intror Hi)) Ha Hl (fun n w o u => Hp (S n) w o u) Hm2) as IF.
      split.
      - eapply (part_region pg k m sf Mo B p a cur off (size t) s1 s2); [exact K|exact I1|apply HK; left; reflexivity|].
        intros s i Hi T. destruct (IF s i Hi T) as (o & u & Hou & T1 & T2). pose proof (O4 o u Hou) as D. unfold disjoint in D. lia.
      - rewrite steps_end_shift in I2.
        apply (IH2 l cs' s2 p (steps_end E cur s1) O5 Hg (fun o u Hi => Hin o u (or_intror Hi)) Ha Hl (fun n w o u => Hp (S n) w o u) Hm2 I2).
        intros o u Hou i Hi1 Hi2 Hn. apply (HK o u (or_intror Hou)); [exact Hi1|exact Hi2|].
        intros s Hs T. apply in_app_or in Hs. destruct Hs as [Hs|Hs]; [|exact (Hn s Hs T)].
        pose proof (shifts_in pg m sf off s1 _ _ _ K s i Hs T). pose proof (O4 o u Hou) as D. unfold disjoint in D. lia. }
    inversion Hm as [|off' t' fs' cs' a' s1 s2 Hm1 Hm2|off' t' fs' w cs' a' s2 Hm2]; subst.
    + pose proof (ok_of pg k m sf C HE LO PO WB t (a + off) v s1 H1 Hw ltac:(lia) Hm1) as K.
      destruct (Rest _ _ s1 s2 eq_refl eq_refl Hm2 K) as [RR (vs' & U' & V')].
      destruct (IH1 Hw ltac:(lia)) as [G _]. destruct (G s1 (p + off) cur Hm1 RR) as (v' & U & V).
      exists (v' :: vs'). split; [constructor; assumption|]. intros f Hf. cbn [map] in Hf. rewrite list_max_cons in Hf.
      cbn [dec_callees]. rewrite V, V' by lia. rewrite steps_end_app, steps_end_shift. reflexivity.
    + pose proof (Hp O w off t eq_refl eq_refl) as Hpx. destruct WB as [_ WB2].
      pose proof (WB2 w t Hpx (a + off) v H1 ltac:(lia)) as K.
      destruct (Rest _ _ _ s2 eq_refl eq_refl Hm2 K) as [RR (vs' & U' & V')].
      destruct HA as [_ HA2]. destruct (HA2 w t Hpx (a + off) v Mo B (p + off) cur H1 ltac:(lia) RR) as (v' & U & V).
      exists (v' :: vs'). split; [constructor; assumption|]. intros f Hf. cbn [map] in Hf. rewrite list_max_cons in Hf.
      cbn [dec_callees]. rewrite V, V' by lia. rewrite steps_end_app, steps_end_shift. reflexivity.
Qed.
End Valid.
