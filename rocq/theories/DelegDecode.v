(** * DelegDecode: reading the output of a program whose impls hand fields on, in order, without following pointers (C93). *)
From Coq Require Import Arith.
From Verif Require Import Base Types Storage Serializer Serialize Client Spec ClientSpec ArithFacts MemFacts TypeFacts SerValue SerMain SerRoot SerProps ClientFacts
  Derive DeriveSpec DeriveFacts Mixed MixedFacts MixedValid MixedDecode Deleg DelegFacts DelegValid.
From Coq Require Import ZifyBool ZifyNat ZifyN.
Local Open Scope N_scope.

(** ** Specification *)
(** The reader of a hand-written impl can use the readers of all types of the program: [dec t p cur] reads the [t] at
    position [p], nothing at or after [cur] having been read yet. *)
Definition decoder := ty -> N -> N -> option (val * N).
Definition dreader := decoder -> reader.

Section Decode.
Context {P : Params} {L : Lexer}.
Variable pg : program.
Notation E := (pr_env pg).
Variable by_type : nat -> dreader.
Variable by_path : path -> ty -> dreader.
Variable plan : nat -> list callee.
Variable M : mem.

(** As MixedDecode.mx_decode. *)
Fixpoint dx_decode (fuel : nat) (t : ty) (p cur : N) : option (val * N) :=
  match fuel with
  | O => None
  | S fuel' =>
      let dec := dx_decode fuel' in
      match t with
      | TPrim l ok =>
          match read_int M p (l_size l) with
          | Some n => if ok n then Some (VPrim n, cur) else None
          | None => None
          end
      | TBox t' =>
          if size_of E t' =? 0
          then omap VBox (decode E M fuel' t' 0 cur)
          else omap VBox (dec t' (push_start cur (layout_of E t')) (push_end cur (layout_of E t') 1))
      | TVec vl t' =>
          match read_word M (p + len_off vl) with
          | Some n =>
              if (size_of E t' =? 0) || (n =? 0)
              then omap VVec (dec_elems (decode E M fuel' t') 0 (N.to_nat n) 0 cur)
              else omap VVec (dec_elems (dec t') (size_of E t') (N.to_nat n)
                                (push_start cur (layout_of E t')) (push_end cur (layout_of E t') n))
          | None => None
          end
      | TString vl =>
          match read_word M (p + len_off vl) with
          | Some n =>
              if n =? 0 then Some (VString [], cur)
              else match read_bytes M (push_start cur u8_layout) (N.to_nat n) with
                   | Some bs => Some (VString bs, push_end cur u8_layout n)
                   | None => None
                   end
          | None => None
          end
      | TArray t' n => omap VArray (dec_elems (dec t') (size_of E t') (N.to_nat n) p cur)
      | TStruct _ fs => omap VStruct (dec_fields dec fs p cur)
      | TEnum _ d vss =>
          match read_discr M p d with
          | Some j =>
              match nth_error vss j with
              | Some fs => omap (VEnum j) (dec_fields dec fs p cur)
              | None => None
              end
          | None => None
          end
      | TNamed id =>
          match impl_for pg id, E id with
          | IHand _, _ => by_type id dec M p cur
          | IDerived _, Some (TStruct _ fs) => omap VStruct (dec_callees (fun w t => by_path w t dec) M dec fs (plan id) p cur)
          | IDerived _, Some (TEnum _ d vss) =>
              match read_discr M p d with
              | Some j =>
                  match nth_error vss j with
                  | Some fs => omap (VEnum j) (dec_fields dec fs p cur)
                  | None => None
                  end
              | None => None
              end
          | _, _ => None
          end
      end
  end.
(** The value serialized at position [pos]. *)
Definition dx_decode_root (fuel : nat) (t : ty) (pos : N) : option val :=
  match dx_decode fuel t pos (round_up (pos + size_of E t) VA) with
  | Some (v, _) => Some v
  | None => None
  end.
End Decode.

(** What a serializer that writes no pointers leaves of an impl's calls, as far as the author of the impl's reader need
    know: what is handed on, he knows only by what its reader answers. *)
Section Wrote.
Context {P : Params} {L : Lexer}.
Variable pg : program.
Notation E := (pr_env pg).
Variable by_hand : nat -> val -> val -> Prop.
Variable by_proxy : path -> ty -> val -> val -> Prop.
Variable dec : decoder.
Variable m : mem.
Variable Mo : mem.
Variable B : N.
(** [copied p a n]: the [n] bytes at position [p] of the output are those at [a]. *)
Definition copied (p a n : N) : Prop := forall i, i < n -> Mo (B + (p + i)) = m (a + i).
(** [wrote p cur s cur']: the call [s], made for the value whose copy is at [p], when the output ended at [cur]; now it ends at [cur']. *)
Inductive wrote : N -> N -> step -> N -> Prop :=
| WR_push p cur off l tp n body cur' :
    copied (slice_pos cur l) tp (l_size l * n) -> wrote_all (slice_pos cur l) (slice_end cur l n) body cur' ->
    wrote p cur (SPush off l tp n body) cur'
| WR_plain p cur off l tp n :
    copied (slice_pos cur l) tp (l_size l * n) -> wrote p cur (SPushPlain off l tp n) (slice_end cur l n)
| WR_raw p cur l tp n :
    copied (slice_pos cur l) tp (l_size l * n) -> wrote p cur (SRaw l tp n) (slice_end cur l n)
| WR_over p cur off l data : wrote p cur (SOver off l data) cur
| WR_field p cur off t v v' cur' :
    turns pg by_hand by_proxy t v v' -> dec t (p + off) cur = Some (v', cur') -> wrote p cur (SField off t v) cur'
| WR_store p cur o :
    (forall l n data, op_data o = Some (l, n, data) -> forall i, i < l_size l * n -> Mo (B + (push_start cur l + i)) = data i) ->
    wrote p cur (SStore o) (step_end E cur (SStore o))
with wrote_all : N -> N -> list step -> N -> Prop :=
| WA_nil p cur : wrote_all p cur [] cur
| WA_cons p cur s ss cur1 cur' : wrote p cur s cur1 -> wrote_all p cur1 ss cur' -> wrote_all p cur (s :: ss) cur'.
End Wrote.

(** [reads_parts t ss rd Q]: the reader [rd] answers the value as meant and where the output of the calls ends. *)
Definition reads_parts {P : Params} {L : Lexer} pg by_hand by_proxy m (t : ty) (ss : mem -> N -> list step) (rd : dreader) (Q : val -> val -> Prop) : Prop :=
  forall dec a v Mo B p cur cur', repr (pr_env pg) any_header m t a v -> a + size_of (pr_env pg) t <= umod ->
    copied m Mo B p a (size_of (pr_env pg) t) -> wrote_all pg by_hand by_proxy dec m Mo B p cur (ss m a) cur' ->
    exists v', Q v v' /\ rd dec (mem_from Mo B) p cur = Some (v', cur').
Definition all_read_parts {P : Params} {L : Lexer} pg by_hand by_proxy by_type by_path m : Prop :=
  (forall id h, impl_for pg id = IHand h -> reads_parts pg by_hand by_proxy m (TNamed id) h (by_type id) (by_hand id)) /\
  (forall w t, proxied pg w t -> reads_parts pg by_hand by_proxy m t (pr_with pg w t) (by_path w t) (by_proxy w t)).

(** ** Proofs *)
Section Valid.
Context {P : Params} {L : Lexer}.
Variable pg : program.
Variable by_hand : nat -> val -> val -> Prop.
Variable by_proxy : path -> ty -> val -> val -> Prop.
Variable by_type : nat -> dreader.
Variable by_path : path -> ty -> dreader.
Variable plan : nat -> list callee.
Variable k : kind.
Variable m : mem.
Variable F : nat.
Notation out := (written_out pg m F).
Notation E := (pr_env pg).
Hypothesis C : cfg_ok.
Hypothesis HE : wf_env E.
Hypothesis LO : lexer_ok.
Hypothesis PO : program_ok pg.
Hypothesis HP : plan_ok pg plan.
Hypothesis HT : tracking k = false.
Notation H := any_header.
Variable Mo : mem.
Variable B : N.
Notation images := (images k E m Mo B).
Notation image := (image k E m Mo B).
Notation region := (region k E m Mo B).
Notation copied := (copied m Mo B).
Notation size t := (size_of E t).
Notation M := (mem_from Mo B).
Notation dec := (dx_decode pg by_type by_path plan M).

Lemma out_derived id i : impl_for out id = IDerived i -> impl_for pg id = IDerived i.
Proof. rewrite impl_out. destruct (impl_for pg id); congruence. Qed.
(** Nothing in a copy is changed: the calls of these serializers only append. *)
Lemma touched_copied p a ss i : forall cur, images p a cur ss -> (exists s, In s ss /\ touched E s i) -> Mo (B + (p + i)) = m (a + i).
Proof.
  clear C HE PO HP by_hand by_proxy by_type by_path plan F. induction ss as [|s ss IH]; intros cur HI (s0 & Hin & T); [destruct Hin|].
  inversion HI as [|? ? ? ? ? I1 I2]; subst. destruct Hin as [<-|Hin]; [|eapply IH; eauto].
  assert (KC : k <> Complete) by (intros ->; discriminate HT). clear HI I2.
  inversion I1; subst; unfold touched in T; cbn [touch] in T; try contradiction.
  - match goal with HH : points _ _ _ _ _ _ _ _ _ _ |- _ => unfold points in HH; rewrite HT in HH; apply HH; lia end.
  - match goal with HH : points _ _ _ _ _ _ _ _ _ _ |- _ => unfold points in HH; rewrite HT in HH; apply HH; lia end.
  - match goal with HH : k <> Complete -> _ |- _ => apply (HH KC); lia end.
  - match goal with HH : tracking k = false -> _ |- _ => apply (HH HT); lia end.
Qed.
Lemma region_copied p a sz cur ss : region p a sz cur ss -> copied p a sz /\ images p a cur ss.
Proof.
  intros HR. inversion HR as [? ? ? ? ? R1 R2]; subst. split; [|exact R2]. intros i Hi.
  destruct (touched_by pg k HT ss i) as [T|T]; [eapply touched_copied; eauto|apply R1; auto].
Qed.
Lemma copied_part p a n off n' : copied p a n -> off + n' <= n -> copied (p + off) (a + off) n'.
Proof. clear C HE PO HP LO HT by_hand by_proxy by_type by_path plan k F L pg. intros HC Hn i Hi. replace (p + off + i) with (p + (off + i)) by lia. replace (a + off + i) with (a + (off + i)) by lia. apply HC. lia. Qed.
Lemma word_copied p a sz off w : copied p a sz -> off + pW <= sz -> read_word m (a + off) = Some w -> read_word M (p + off) = Some w.
Proof. intros HC Ho Hr. rewrite <- Hr. apply read_word_ext. intros i Hi. rewrite <- !N.add_assoc. apply HC. lia. Qed.
Lemma discr_copied l d vss j p a :
  discr_ok E l vss d -> read_discr m a d = Some j -> copied p a (l_size l) -> read_discr M p d = Some j.
Proof.
  intros HD Hr HC. rewrite <- Hr. apply (discr_inside pg) in HD. destruct d; [reflexivity| |];
    (apply read_discr_ext; intros i Hi; rewrite <- !N.add_assoc; apply HC; lia).
Qed.
Lemma dec_own_callees bp g fs : forall p cur, dec_callees bp M g fs (map (fun _ => CSerialize) fs) p cur = dec_fields g fs p cur.
Proof. induction fs as [|[off t] fs IH]; intros p cur; [reflexivity|]. cbn [map dec_callees dec_fields]. destruct (g t (p + off) cur) as [[v c]|]; [|reflexivity]. rewrite IH. reflexivity. Qed.

(** The readers are right for values nested less deep than [f]. *)
Definition reads_at (f : nat) : Prop :=
  (forall id h a v p cur, impl_for out id = IHand h -> repr E H m (TNamed id) a v -> a + size (TNamed id) <= umod -> (vdepth v <= f)%nat ->
     copied p a (size (TNamed id)) -> images p a cur (h m a) ->
     exists v', by_hand id v v' /\ by_type id (dec f) M p cur = Some (v', steps_end E cur (h m a))) /\
  (forall w t a v p cur, proxied out w t -> repr E H m t a v -> a + size t <= umod -> (vdepth v < f)%nat ->
     copied p a (size t) -> images p a cur (pr_with out w t m a) ->
     exists v', by_proxy w t v v' /\ by_path w t (dec f) M p cur = Some (v', steps_end E cur (pr_with out w t m a))).

Definition r_fields (fs : list (N * ty)) (a : N) (vs : list val) : Prop :=
  forall f l cs ss p cur, (forall f', (f' <= f)%nat -> reads_at f') -> (list_max (map vdepth vs) < f)%nat ->
  fields_ok E l fs -> (forall o t, In (o, t) fs -> wf_ty E t) -> a + l_size l <= umod ->
  length cs = length fs ->
  (forall n w off t, nth_error cs n = Some (CWith w) -> nth_error fs n = Some (off, t) -> proxied out w t) ->
  makes_fields out m fs cs a ss -> images p a cur ss -> copied p a (l_size l) ->
  exists vs', turns_fields out by_hand by_proxy fs cs vs vs' /\
    dec_callees (fun w t => by_path w t (dec f)) M (dec f) fs cs p cur = Some (vs', steps_end E cur ss).
Definition r_ty (t : ty) (a : N) (v : val) : Prop :=
  forall f ss p cur, (forall f', (f' < f)%nat -> reads_at f') -> (vdepth v < f)%nat ->
  makes out m t a ss -> images p a cur ss -> copied p a (size t) ->
  exists v', turns out by_hand by_proxy t v v' /\ dec f t p cur = Some (v', steps_end E cur ss).
Definition r_parts (t : ty) (a : N) (v : val) : Prop :=
  match t with
  | TStruct l fs => exists vs, v = VStruct vs /\ r_fields fs a vs
  | TEnum l d vss => exists j fs vs, v = VEnum j vs /\ read_discr m a d = Some j /\ nth_error vss j = Some fs /\ r_fields fs a vs
  | _ => True
  end.
Definition r_elems (t : ty) (a : N) (vs : list val) : Prop :=
  wf_ty E t -> forall f b off ss p cur, (forall f', (f' < f)%nat -> reads_at f') -> (list_max (map vdepth vs) < f)%nat -> a = b + off ->
  b + off + size t * N.of_nat (length vs) <= umod ->
  makes_elems out m t (length vs) off b ss -> images p b cur ss -> copied (p + off) (b + off) (size t * N.of_nat (length vs)) ->
  exists vs', turns_all out by_hand by_proxy t vs vs' /\
    dec_elems (dec f t) (size t) (length vs) (p + off) cur = Some (vs', steps_end E cur ss).

Notation images_app := (images_app pg k m Mo B).
Notation images_shift := (images_shift pg k m Mo B).

Lemma reads_all :
  (forall t a v, repr E H m t a v -> wf_ty E t -> a + size t <= umod -> r_ty t a v /\ r_parts t a v) /\
  (forall t a vs, repr_elems E H m t a vs -> r_elems t a vs) /\
  (forall fs a vs, repr_fields E H m fs a vs -> r_fields fs a vs).
Proof.
  pose proof (pW_vals (c_machine C)) as HW.
  assert (FU : forall n f, (n < f)%nat -> exists f', f = S f' /\ (n <= f')%nat) by (intros n [|f'] Hf; [lia|exists f'; split; [reflexivity|lia]]).
  apply (repr_mut P E H m
    (fun t a v => wf_ty E t -> a + size t <= umod -> r_ty t a v /\ r_parts t a v) r_elems r_fields).
  - intros l ok a n H1 H2 Hw Ha. split; [|exact Logic.I]. intros f ss p cur HF Hf Hm HI HC. inversion Hm; subst; change (pr_env out) with E in *.
    exists (VPrim n). split; [constructor|]. destruct (FU _ _ Hf) as (f' & -> & _). cbn [dx_decode].
    assert (R : read_int M p (l_size l) = Some n).
    { rewrite <- H1. apply read_int_ext. intros i Hi. apply HC. exact Hi. }
    rewrite R, H2. reflexivity.
  - intros t a q v H1 H2 H3 H4 IH Hw Ha. split; [|exact Logic.I]. intros f ss p cur HF Hf Hm HI HC.
    inversion Hw as [|t' Ht HP'| | | | | |]; subst. destruct H2 as (Hp0 & Hpa & Hpe). fold (size t) in Hpe.
    change (size (TBox t)) with pW in *. cbn [vdepth] in Hf. destruct (FU _ _ Hf) as (f' & -> & Hf').
    inversion Hm as [|t' a' q' ss' NZ Hq Hm'|t' a' Z| | | | | | | | | | |]; subst; change (pr_env out) with E in *.
    + assert (q' = q) by congruence. subst q'. inversion HI as [|? ? ? ? ? I1 I2]; subst. inversion I1 as [? ? ? ? ? ? ? ? J1 J2| | | | |]; subst.
      rewrite (slice_pos_sized cur (layout_of E t) NZ), (slice_end_sized cur (layout_of E t) 1 NZ) in J2.
      rewrite N.mul_1_r in J2. apply region_copied in J2. destruct J2 as [J2 J3]. destruct (IH Ht ltac:(lia)) as [G _].
      destruct (G f' ss' _ _ (fun x Hx => HF x ltac:(lia)) ltac:(lia) Hm' J3 J2) as (v' & U & V).
      exists (VBox v'). split; [apply U_box; assumption|].
      cbn [dx_decode]. rewrite (proj2 (N.eqb_neq _ _) NZ). rewrite V.
      unfold steps_end. cbn [fold_left step_end]. rewrite (slice_end_sized cur (layout_of E t) 1 NZ). reflexivity.
    + exists (VBox v). split; [apply U_box_zst; exact Z|].
      cbn [dx_decode]. rewrite (proj2 (N.eqb_eq _ _) Z). rewrite (proj2 (zst_value C E HE _ _ _ _ _ H4 Ht Z)) by lia. reflexivity.
  - intros vl t a c q vs H1 H2 H3 H4 H5 H6 IH Hw Ha. split; [|exact Logic.I]. intros f ss p cur HF Hf Hm HI HC.
    inversion Hw as [| |vl' t' Ht HP'| | | | |]; subst.
    destruct H4 as ((Hp0 & Hpa & Hpe) & Hc1 & Hc2 & Hc3). fold (size t) in *.
    change (size (TVec vl t)) with (3 * pW) in *. cbn [vdepth] in Hf. destruct (FU _ _ Hf) as (f' & -> & Hf').
    destruct (vl_offs vl ltac:(lia)) as (V1 & V2 & V3 & _).
    assert (LW : read_word M (p + len_off vl) = Some (N.of_nat (length vs))) by (eapply word_copied; [exact HC|lia|exact H3]).
    inversion Hm as [| | |vl' t' a' q' cap len ss' NZ Hcap Hq Hlen L0 Hel|vl' t' a' cap NZ Hcap Hlen|vl' t' a' Z| | | | | | | |]; subst; change (pr_env out) with E in *.
    + assert (len = N.of_nat (length vs)) by congruence. assert (q' = q) by congruence. subst.
      apply images_app in HI. destruct HI as [I1 I2].
      rewrite (header_end pg) in I2. inversion I2 as [|? ? ? ? ? I3 _]; subst. inversion I3 as [? ? ? ? ? ? ? ? J1 J2| | | | |]; subst.
      rewrite (slice_pos_sized cur (layout_of E t) NZ), (slice_end_sized cur (layout_of E t) _ NZ) in J2.
      apply region_copied in J2. destruct J2 as [Q1 Q2]. rewrite Nat2N.id in Hel.
      destruct (IH Ht f' q 0 ss' _ _ (fun x Hx => HF x ltac:(lia)) ltac:(lia) ltac:(lia) ltac:(lia) Hel Q2) as (vs' & U & V).
      { rewrite !N.add_0_r. exact Q1. }
      rewrite N.add_0_r in V.
      exists (VVec vs'). split; [apply U_vec; assumption|].
      cbn [dx_decode]. rewrite LW, (proj2 (N.eqb_neq _ _) NZ), (proj2 (N.eqb_neq _ _) L0). cbn [orb]. rewrite Nat2N.id, V.
      rewrite (steps_end_app pg), (header_end pg). unfold steps_end. cbn [fold_left step_end].
      rewrite (slice_end_sized cur (layout_of E t) _ NZ). reflexivity.
    + assert (L0 : N.of_nat (length vs) = 0) by congruence.
      assert (vs = []) as -> by (destruct vs; [reflexivity|cbn in L0; lia]). cbn [length] in *.
      exists (VVec []). split; [apply U_vec; [exact NZ|constructor]|].
      cbn [dx_decode]. rewrite LW. change (N.of_nat 0) with 0. rewrite Bool.orb_true_r. rewrite (header_end pg). reflexivity.
    + exists (VVec vs). split; [apply U_vec_zst; exact Z|].
      cbn [dx_decode]. rewrite LW, (proj2 (N.eqb_eq _ _) Z). cbn [orb]. rewrite Nat2N.id.
      rewrite (zst_value_elems C E HE _ _ _ _ _ H6 Ht Z) by lia. reflexivity.
  - intros vl a c q bs H1 H2 H3 H4 H5 H6 Hw Ha. split; [|exact Logic.I]. intros f ss p cur HF Hf Hm HI HC.
    change (size (TString vl)) with (3 * pW) in *. destruct (FU _ _ Hf) as (f' & -> & _).
    destruct (vl_offs vl ltac:(lia)) as (V1 & V2 & V3 & _).
    assert (LW : read_word M (p + len_off vl) = Some (N.of_nat (length bs))) by (eapply word_copied; [exact HC|lia|exact H3]).
    exists (VString bs). split; [constructor|]. cbn [dx_decode]. rewrite LW.
    inversion Hm as [| | | | | |vl' a' q' cap len Hcap Hq Hlen L0|vl' a' cap Hcap Hlen| | | | | |]; subst; change (pr_env out) with E in *.
    + assert (len = N.of_nat (length bs)) by congruence. assert (q' = q) by congruence. subst.
      apply images_app in HI. destruct HI as [I1 I2].
      rewrite (header_end pg) in I2. inversion I2 as [|? ? ? ? ? I3 _]; subst. inversion I3 as [|? ? ? ? ? ? ? J1 J2| | | |]; subst.
      rewrite (proj2 (N.eqb_neq _ _) L0).
      assert (RB : read_bytes M (push_start cur u8_layout) (N.to_nat (N.of_nat (length bs))) = Some bs).
      { rewrite Nat2N.id, <- H6. apply read_bytes_ext. intros i Hi. unfold mem_from. apply J2; cbn [u8_layout l_size]; lia. }
      rewrite RB, (steps_end_app pg), (header_end pg). reflexivity.
    + assert (L0 : N.of_nat (length bs) = 0) by congruence.
      assert (bs = []) as -> by (destruct bs; [reflexivity|cbn in L0; lia]). cbn [length N.of_nat]. change (0 =? 0) with true. cbv iota.
      rewrite (header_end pg). reflexivity.
  - intros t n a vs -> H1 IH Hw Ha. split; [|exact Logic.I]. intros f ss p cur HF Hf Hm HI HC.
    inversion Hw as [| | | |t' n' Ht HP'| | |]; subst. change (size (TArray t (N.of_nat (length vs)))) with (size t * N.of_nat (length vs)) in *.
    cbn [vdepth] in Hf. destruct (FU _ _ Hf) as (f' & -> & Hf').
    inversion Hm as [| | | | | | | |t' n' a' ss' Hel| | | | |]; subst; change (pr_env out) with E in *. rewrite Nat2N.id in Hel.
    destruct (IH Ht f' a 0 ss p cur (fun x Hx => HF x ltac:(lia)) ltac:(lia) ltac:(lia) ltac:(lia) Hel HI) as (vs' & U & V).
    { rewrite !N.add_0_r. exact HC. }
    rewrite N.add_0_r in V. exists (VArray vs'). split; [apply U_array; exact U|].
    cbn [dx_decode]. rewrite Nat2N.id, V. reflexivity.
  - intros l fs a vs H1 IH Hw Ha. split; [|exists vs; auto]. intros f ss p cur HF Hf Hm HI HC.
    inversion Hw as [| | | | |l' fs' Hg Hf' Hin| |]; subst. change (size (TStruct l fs)) with (l_size l) in *.
    cbn [vdepth] in Hf. destruct (FU _ _ Hf) as (f' & -> & Hf0).
    inversion Hm as [| | | | | | | | |l' fs' a' ss' Hmf| | | |]; subst; change (pr_env out) with E in *.
    assert (NP : forall n w off t, nth_error (map (fun _ : N * ty => CSerialize) fs) n = Some (CWith w) -> nth_error fs n = Some (off, t) -> proxied out w t).
    { intros n w off t Hn _. eapply no_proxies; eassumption. }
    destruct (IH f' l (map (fun _ : N * ty => CSerialize) fs) ss p cur (fun x Hx => HF x ltac:(lia)) ltac:(lia) Hf' Hin Ha ltac:(apply map_length) NP Hmf HI HC) as (vs' & U & V).
    exists (VStruct vs'). split; [apply U_struct; exact U|]. rewrite dec_own_callees in V.
    cbn [dx_decode]. rewrite V. reflexivity.
  - intros l d vss a j fs vs H1 H2 H3 IH Hw Ha. split; [|exists j, fs, vs; auto]. intros f ss p cur HF Hf Hm HI HC.
    inversion Hw as [| | | | | |l' d' vss' Hg Hd' Hf' Hin|]; subst. change (size (TEnum l d vss)) with (l_size l) in *.
    cbn [vdepth] in Hf. destruct (FU _ _ Hf) as (f' & -> & Hf0).
    inversion Hm as [| | | | | | | | | |l' d' vss' a' j' fs' ss' Hj Hfs Hmf| | |]; subst; change (pr_env out) with E in *.
    assert (j' = j) by congruence. subst. assert (fs' = fs) by congruence. subst.
    assert (NP : forall n w off t, nth_error (map (fun _ : N * ty => CSerialize) fs) n = Some (CWith w) -> nth_error fs n = Some (off, t) -> proxied out w t).
    { intros n w off t Hn _. eapply no_proxies; eassumption. }
    destruct (IH f' l (map (fun _ : N * ty => CSerialize) fs) ss p cur (fun x Hx => HF x ltac:(lia)) ltac:(lia) (Hf' j fs H2) (fun o t => Hin j fs o t H2) Ha ltac:(apply map_length) NP Hmf HI HC) as (vs' & U & V).
    exists (VEnum j vs'). split; [eapply U_enum; eassumption|]. rewrite dec_own_callees in V.
    cbn [dx_decode]. rewrite (discr_copied l d vss j p a Hd' Hj HC), H2, V. reflexivity.
  - intros id d a v H1 H2 IH Hw Ha. split; [|exact Logic.I]. intros f ss p cur HF Hf Hm HI HC.
    assert (HL : layout_of E (TNamed id) = layout_of E d) by (apply (named_size E HE); exact H1).
    assert (HD : size (TNamed id) = size d) by (unfold size_of; rewrite HL; reflexivity).
    destruct (HE id d H1) as [Wd _]. pose proof Ha as Ha0. rewrite HD in Ha. destruct (IH Wd Ha) as [_ Pt].
    destruct (FU _ _ Hf) as (f' & -> & Hf0).
    inversion Hm as [| | | | | | | | | | |id' h a' EI|id' i l fs dfs cs a' ss' EI Ed Hd Hcs Hmf|id' i l dd vss j fs a' ss' EI Ed Hj Hfs Hmf]; subst; change (pr_env out) with E in *.
    + destruct (HF f' ltac:(lia)) as [HA1 _]. destruct (HA1 id h a v p cur EI) as (v' & Q & V); auto.
      { econstructor; eassumption. }
      exists v'. split; [eapply U_hand; eassumption|]. cbn [dx_decode]. destruct (out_hand pg m F id h EI) as (h0 & -> & _). exact V.
    + assert (d = TStruct l fs) by congruence. subst d. rewrite HD in HC. change (size (TStruct l fs)) with (l_size l) in *.
      destruct Pt as (vs & -> & FG). inversion Wd as [| | | | |l' fs' Gl Hf' Hin| |]; subst. cbn [vdepth] in Hf.
      assert (EI' : impl_for pg id = IDerived i) by (apply out_derived; exact EI).
      pose proof (PO id _ H1) as Pk. rewrite EI' in Pk. inversion Pk as [l0 fs0 dfs0 im Ed' Hl Hn Hg Hq|]; subst.
      assert (dfs0 = dfs) by congruence. subst dfs0.
      assert (LC : length cs = length fs) by (rewrite <- Hn; symmetry; eapply SerFacts.F2_length; exact Hcs).
      assert (NP : forall n w off t, nth_error cs n = Some (CWith w) -> nth_error fs n = Some (off, t) -> proxied out w t).
      { intros n w off t Hn1 Hn2. assert (Hx : exists f, nth_error (field_list dfs) n = Some f /\ wanted f (CWith w)).
        { clear - Hcs Hn1. revert n Hn1. induction Hcs as [|f c l cs' Hf Hr IH]; intros [|n] Hn1; cbn in *; try discriminate.
          - injection Hn1 as ->. eauto.
          - eauto. }
        destruct Hx as (f & Hnf & Hwf). inversion Hwf; subst. exists id, i, l, fs, dfs, n, f, off. auto 10. }
      destruct (FG f' l cs ss p cur (fun x Hx => HF x ltac:(lia)) ltac:(lia) Hf' Hin Ha LC NP Hmf HI HC) as (vs' & U & V).
      assert (plan id = cs) as PE by (eapply (wanted_unique pg LO PO); [exact EI'|exact H1|exact Hd|exact (HP id l fs i dfs H1 EI' Hd)|exact Hcs]).
      exists (VStruct vs'). split; [eapply U_derived; eassumption|].
      cbn [dx_decode]. rewrite EI', H1, PE, V. reflexivity.
    + assert (d = TEnum l dd vss) by congruence. subst d. rewrite HD in HC. change (size (TEnum l dd vss)) with (l_size l) in *.
      destruct Pt as (j' & fs' & vs & -> & Rd & Nj & FG). assert (j' = j) by congruence. subst. assert (fs' = fs) by congruence. subst.
      inversion Wd as [| | | | | |l' d' vss' Gl Hd' Hf' Hin|]; subst. cbn [vdepth] in Hf.
      assert (NP : forall n w off t, nth_error (map (fun _ : N * ty => CSerialize) fs) n = Some (CWith w) -> nth_error fs n = Some (off, t) -> proxied out w t).
      { intros n w off t Hn _. eapply no_proxies; eassumption. }
      destruct (FG f' l (map (fun _ : N * ty => CSerialize) fs) ss p cur (fun x Hx => HF x ltac:(lia)) ltac:(lia) (Hf' j fs Nj) (fun o t => Hin j fs o t Nj) Ha ltac:(apply map_length) NP Hmf HI HC) as (vs' & U & V).
      exists (VEnum j vs'). split; [eapply U_derived_enum; eassumption|]. rewrite dec_own_callees in V.
      cbn [dx_decode]. rewrite (out_derived id i EI), H1, (discr_copied l dd vss j p a Hd' Hj HC), Nj, V. reflexivity.
  - intros t a Hw f b off ss p cur HF Hf -> Hb Hm HI HC. cbn [length] in Hm. inversion Hm; subst; change (pr_env out) with E in *. exists []. split; [constructor|]. reflexivity.
  - intros t a v vs H1 IH1 H2 IH2 Hw f b off ss p cur HF Hf -> Hb Hm HI HC. cbn [length] in *. rewrite Nat2N.inj_succ in *.
    cbn [map] in Hf. rewrite list_max_cons in Hf.
    inversion Hm as [|t' n' off' b' s1 s2 Hm1 Hm2]; subst; change (pr_env out) with E in *.
    apply images_app in HI. destruct HI as [I1 I2]. apply images_shift in I1.
    destruct (IH1 Hw ltac:(lia)) as [G _]. destruct (G f s1 (p + off) cur HF ltac:(lia) Hm1 I1) as (v' & U & V).
    { intros i Hi. apply HC. lia. }
    rewrite (steps_end_shift pg) in I2.
    destruct (IH2 Hw f b (off + size t) s2 p _ HF ltac:(lia) ltac:(lia) ltac:(lia) Hm2 I2) as (vs' & U' & V').
    { rewrite !N.add_assoc. eapply copied_part; [exact HC|lia]. }
    exists (v' :: vs'). split; [constructor; assumption|].
    cbn [dec_elems]. rewrite V. rewrite <- N.add_assoc, V'. rewrite (steps_end_app pg), (steps_end_shift pg). reflexivity.
  - intros a f l cs ss p cur HF Hf Ho Hin Ha Hl Hp Hm HI HC. destruct cs; [|discriminate]. inversion Hm; subst; change (pr_env out) with E in *. exists []. split; [constructor|]. reflexivity.
  - intros off t fs a v vs H1 IH1 H2 IH2 f l cs ss p cur HF Hf Ho Hin Ha Hl Hp Hm HI HC.
    inversion Ho as [|off' t' fs' O1 O2 O3 O4 O5]; subst. cbn [map] in Hf. rewrite list_max_cons in Hf.
    assert (Hw : wf_ty E t) by (eapply Hin; left; reflexivity).
    assert (CP : copied (p + off) (a + off) (size t)) by (eapply copied_part; [exact HC|lia]).
    inversion Hm as [|off' t' fs' cs' a' s1 s2 Hm1 Hm2|off' t' fs' w cs' a' s2 Hm2]; subst; change (pr_env out) with E in *;
      apply images_app in HI; destruct HI as [I1 I2]; apply images_shift in I1; rewrite (steps_end_shift pg) in I2; injection Hl as Hl;
      destruct (IH2 f l cs' s2 p _ HF ltac:(lia) O5 (fun o u Hi => Hin o u (or_intror Hi)) Ha Hl (fun n w o u => Hp (S n) w o u) Hm2 I2 HC) as (vs' & U' & V').
    + destruct (IH1 Hw ltac:(lia)) as [G _]. destruct (G f s1 (p + off) cur (fun x Hx => HF x ltac:(lia)) ltac:(lia) Hm1 I1 CP) as (v' & U & V).
      exists (v' :: vs'). split; [constructor; assumption|].
      cbn [dec_callees]. rewrite V, V'. rewrite (steps_end_app pg), (steps_end_shift pg). reflexivity.
    + pose proof (Hp O w off t eq_refl eq_refl) as Hpx.
      destruct (HF f (le_n f)) as [_ HA2]. destruct (HA2 w t (a + off) v (p + off) cur Hpx H1 ltac:(lia) ltac:(lia) CP I1) as (v' & U & V).
      exists (v' :: vs'). split; [constructor; assumption|].
      cbn [dec_callees]. rewrite V, V'. rewrite (steps_end_app pg), (steps_end_shift pg). reflexivity.
Qed.
End Valid.

Section Deleg.
Context {P : Params} {L : Lexer}.
Variable pg : program.
Variable by_hand : nat -> val -> val -> Prop.
Variable by_proxy : path -> ty -> val -> val -> Prop.
Variable by_type : nat -> dreader.
Variable by_path : path -> ty -> dreader.
Variable plan : nat -> list callee.
Variable k : kind.
Variable m : mem.
Notation E := (pr_env pg).
Notation cl := (calls pg m).
Notation out F := (written_out pg m F).
Hypothesis C : cfg_ok.
Hypothesis HE : wf_env E.
Hypothesis LO : lexer_ok.
Hypothesis PO : program_ok pg.
Hypothesis DW : delegates_well pg m.
Hypothesis HA : all_read_parts pg by_hand by_proxy by_type by_path m.
Hypothesis HP : plan_ok pg plan.
Hypothesis HT : tracking k = false.
Notation H := any_header.
Variable Mo : mem.
Variable B : N.
Notation images := (images k E m Mo B).
Notation region := (region k E m Mo B).
Notation copied := (copied m Mo B).
Notation M := (mem_from Mo B).
Notation dec := (dx_decode pg by_type by_path plan M).
Notation wrote f := (wrote pg by_hand by_proxy (dec f) m Mo B).
Notation wrote_all f := (wrote_all pg by_hand by_proxy (dec f) m Mo B).

Lemma wrote_of rec d f :
  (forall t a v ss p cur, repr E H m t a v -> wf_ty E t -> a + size_of E t <= umod -> (vdepth v < d)%nat -> rec t a = Some ss ->
     images p a cur ss -> copied p a (size_of E t) -> exists v', turns pg by_hand by_proxy t v v' /\ dec f t p cur = Some (v', steps_end E cur ss)) ->
  forall size al a s0, steps_ok E m d size al a s0 -> a + size <= umod -> forall ss p cur, expands rec a s0 = Some ss ->
    images p a cur ss -> copied p a size -> wrote_all f p cur s0 (steps_end E cur ss).
Proof.
  intros HR.
  apply (steps_ok_mut P E m d
    (fun size al a s _ => a + size <= umod -> forall ss p cur, expand rec a s = Some ss -> images p a cur ss -> copied p a size -> wrote f p cur s (steps_end E cur ss))
    (fun size al a s0 _ => a + size <= umod -> forall ss p cur, expands rec a s0 = Some ss -> images p a cur ss -> copied p a size -> wrote_all f p cur s0 (steps_end E cur ss))).
  - intros size al a off l tp n body H1 H2 H3 H4 H5 IH Ha ss p cur. rewrite expand_push. pose proof H4 as (_ & _ & H6).
    destruct (expands rec tp body) as [b|] eqn:Eb; [|discriminate]. intros Hx HI HC; injection Hx as <-.
    inversion HI as [|? ? ? ? ? I1 I2]; subst. inversion I1 as [? ? ? ? ? ? ? ? J1 J2| | | | |]; subst.
    destruct (region_copied pg k m HT Mo B _ _ _ _ _ J2) as [Q1 Q2]. apply WR_push; [exact Q1|].
    exact (IH H6 b _ _ eq_refl Q2 Q1).
  - intros size al a off l tp n H1 H2 H3 H4 Ha ss p cur Hx HI HC; injection Hx as <-.
    inversion HI as [|? ? ? ? ? I1 I2]; subst. inversion I1 as [|? ? ? ? ? ? ? J1 J2| | | |]; subst. apply WR_plain. intros i Hi. apply J2; lia.
  - intros size al a l tp n H1 Ha ss p cur Hx HI HC; injection Hx as <-.
    inversion HI as [|? ? ? ? ? I1 I2]; subst. inversion I1 as [| |? ? ? ? ? ? J2| | |]; subst. apply WR_raw. intros i Hi. apply J2; lia.
  - intros size al a off l data H1 H2 H3 H4 H5 Ha ss p cur Hx HI HC; injection Hx as <-. constructor.
  - intros size al a off t v H1 H2 H3 H4 H5 H6 Ha ss p cur Hx HI HC. cbn [expand] in Hx. apply off_inv in Hx. destruct Hx as (s1 & Hx & ->).
    apply (images_shift pg) in HI. rewrite (steps_end_shift pg).
    destruct (HR t (a + off) v s1 (p + off) cur H2 H1 ltac:(lia) H3 Hx HI) as (v' & V1 & V2); [eapply copied_part; [exact HC|lia]|].
    eapply WR_field; eassumption.
  - intros size al a o H1 H2 H3 Ha ss p cur Hx HI HC. injection Hx as <-. inversion HI as [|? ? ? ? ? I1 I2]; subst. inversion I1; subst. apply WR_store; assumption.
  - intros size al a Ha ss p cur Hx HI HC; injection Hx as <-. inversion HI as [|? ? ? ? ? I1 I2]; subst. inversion I1.
  - intros size al a Ha ss p cur Hx HI HC. injection Hx as <-. constructor.
  - intros size al a s s0 H1 IH1 H2 H3 IH2 Ha ss p cur Hx HI HC. cbn [expands] in Hx. apply cat_inv in Hx. destruct Hx as (s1 & s2 & X1 & X2 & ->).
    apply (images_app pg) in HI. destruct HI as [HI1 HI2]. rewrite (steps_end_app pg).
    econstructor; [exact (IH1 Ha s1 p cur X1 HI1 HC)|exact (IH2 Ha s2 p _ X2 HI2 HC)].
Qed.

Variable F : nat.
Notation reads_at f := (reads_at pg by_hand by_proxy by_type by_path plan k m F Mo B f).
Lemma all_reads : forall f f', (f' < f)%nat -> reads_at f'.
Proof.
  induction f as [|f IH]; intros f' Hf'; [lia|].
  assert (X : forall t a v ss p cur, repr E H m t a v -> wf_ty E t -> a + size_of E t <= umod -> (vdepth v < f')%nat -> cl F t a = Some ss ->
     images p a cur ss -> copied p a (size_of E t) -> exists v', turns pg by_hand by_proxy t v v' /\ dec f' t p cur = Some (v', steps_end E cur ss)).
  { intros t a v ss p cur Hr Hw Ha Hd Hc HI HC.
    destruct (proj1 (reads_all pg by_hand by_proxy by_type by_path plan k m F C HE LO PO HP HT Mo B) t a v Hr Hw Ha) as [G _].
    destruct (G f' ss p cur (fun x Hx => IH x ltac:(lia)) Hd (calls_make pg m LO PO F F ltac:(lia) t a ss Hc) HI HC) as (v' & U & V).
    exists v'. split; [exact (proj1 (turns_out pg by_hand by_proxy m F) t v v' U)|exact V]. }
  destruct DW as [D1 D2]. destruct HA as [A1 A2]. split.
  - intros id h' a v p cur Hh Hr Ha Hd HC HI. destruct (out_hand pg m F id h' Hh) as (h & Hi & ->).
    destruct (expands (cl F) a (h m a)) as [ss|] eqn:Ex; cbn [or_panic] in *.
    + apply (A1 id h Hi (dec f') a v Mo B p cur _ Hr Ha HC).
      refine (wrote_of (cl F) (0 + vdepth v) f' _ _ _ a (h m a) (D1 id h Hi a v Hr Ha) Ha ss p cur Ex HI HC).
      intros t0 a0 v0 ss0 p0 cur0 V1 V2 V3 V4. apply (X t0 a0 v0 ss0 p0 cur0 V1 V2 V3). lia.
    + inversion HI as [|? ? ? ? ? I1 I2]; subst. inversion I1.
  - intros w t a v p cur Hw Hr Ha Hd HC HI. apply out_proxied in Hw. cbn [pr_with written_out] in *.
    destruct (expands (cl F) a (pr_with pg w t m a)) as [ss|] eqn:Ex; cbn [or_panic] in *.
    + apply (A2 w t Hw (dec f') a v Mo B p cur _ Hr Ha HC).
      refine (wrote_of (cl F) (1 + vdepth v) f' _ _ _ a (pr_with pg w t m a) (D2 w t Hw a v Hr Ha) Ha ss p cur Ex HI HC).
      intros t0 a0 v0 ss0 p0 cur0 V1 V2 V3 V4. apply (X t0 a0 v0 ss0 p0 cur0 V1 V2 V3). lia.
    + inversion HI as [|? ? ? ? ? I1 I2]; subst. inversion I1.
Qed.
(** What the calls of a value have written is read as the value, turned as its impls mean to. *)
Lemma dx_reads : forall t a v ss p cur f, repr E H m t a v -> wf_ty E t -> a + size_of E t <= umod -> (vdepth v < f)%nat -> cl F t a = Some ss ->
  region p a (size_of E t) cur ss -> exists v', turns pg by_hand by_proxy t v v' /\ dec f t p cur = Some (v', steps_end E cur ss).
Proof.
  intros t a v ss p cur f Hr Hw Ha Hd Hc HR. destruct (region_copied pg k m HT Mo B _ _ _ _ _ HR) as [HC HI].
  destruct (proj1 (reads_all pg by_hand by_proxy by_type by_path plan k m F C HE LO PO HP HT Mo B) t a v Hr Hw Ha) as [G _].
  destruct (G f ss p cur (all_reads f) Hd (calls_make pg m LO PO F F ltac:(lia) t a ss Hc) HI HC) as (v' & U & V).
  exists v'. split; [exact (proj1 (turns_out pg by_hand by_proxy m F) t v v' U)|exact V].
Qed.
End Deleg.
