(** * DelegValid: what the output of a program whose impls hand fields on is as a value (C92). *)
From Coq Require Import Arith.
From Verif Require Import Base Types Storage Serializer Serialize Client Spec ClientSpec ArithFacts TypeFacts SerMain ClientFacts
  Derive DeriveSpec DeriveFacts Mixed MixedFacts MixedValid Deleg DelegFacts.
From Coq Require Import ZifyBool ZifyNat ZifyN.
Local Open Scope N_scope.

(** ** Specification: what may be assumed of the parts handed on *)
Section Effects.
Context {P : Params} {L : Lexer}.
Variable pg : program.
Notation E := (pr_env pg).
Variable by_hand : nat -> val -> val -> Prop.
Variable by_proxy : path -> ty -> val -> val -> Prop.
Variable k : kind.
Variable m : mem.
Variable Mo : mem.
Variable B : N.

(** [effect p a s]: in the output [Mo], the call [s] made for the value at [a] has had its effect on the copy at
    position [p].  A field handed on is there, turned as its own impls mean to ([turns]). *)
Inductive effect : N -> N -> step -> Prop :=
| X_push p a off l tp n body q :
    points k m Mo B p a off l n q -> effects q tp (l_size l * n) body -> effect p a (SPush off l tp n body)
| X_plain p a off l tp n q :
    points k m Mo B p a off l n q -> same_bytes m Mo B q tp 0 (l_size l * n) -> effect p a (SPushPlain off l tp n)
| X_raw p a l tp n q : same_bytes m Mo B q tp 0 (l_size l * n) -> effect p a (SRaw l tp n)
| X_over p a off l data :
    (k = Complete -> forall i, i < l_size l -> Mo (B + (p + off + i)) = data i) ->
    (k <> Complete -> same_bytes m Mo B p a off (l_size l)) ->
    effect p a (SOver off l data)
| X_field p a off t v v' :
    turns pg by_hand by_proxy t v v' -> repr E any_header Mo t (B + (p + off)) v' -> effect p a (SField off t v)
| X_store p a o : effect p a (SStore o)
(** ... of all the calls, and the bytes no call is for are as in the input. *)
with effects : N -> N -> N -> list step -> Prop :=
| X_effects p a size ss :
    (forall i, i < size -> (forall s, In s ss -> ~ touched E s i) -> Mo (B + (p + i)) = m (a + i)) ->
    (forall s, In s ss -> effect p a s) ->
    effects p a size ss.
End Effects.

(** [attains t ss Q]: as MixedValid.achieves, but with what is handed on known by its values only. *)
Definition attains {P : Params} {L : Lexer} pg by_hand by_proxy k m (t : ty) (ss : mem -> N -> list step) (Q : val -> val -> Prop) : Prop :=
  forall a v Mo B p, repr (pr_env pg) any_header m t a v -> a + size_of (pr_env pg) t <= umod ->
    effects pg by_hand by_proxy k m Mo B p a (size_of (pr_env pg) t) (ss m a) ->
    exists v', Q v v' /\ repr (pr_env pg) any_header Mo t (B + p) v'.
Definition all_attain {P : Params} {L : Lexer} pg by_hand by_proxy k m : Prop :=
  (forall id h, impl_for pg id = IHand h -> attains pg by_hand by_proxy k m (TNamed id) h (by_hand id)) /\
  (forall w t, proxied pg w t -> attains pg by_hand by_proxy k m t (pr_with pg w t) (by_proxy w t)).

(** ** Proofs *)
Section Proofs.
Context {P : Params} {L : Lexer}.
Variable pg : program.
Variable by_hand : nat -> val -> val -> Prop.
Variable by_proxy : path -> ty -> val -> val -> Prop.
Variable k : kind.
Variable m : mem.
Notation E := (pr_env pg).
Notation out F := (written_out pg m F).
Notation cl := (calls pg m).
Hypothesis C : cfg_ok.
Hypothesis HE : wf_env E.
Hypothesis LO : lexer_ok.
Hypothesis PO : program_ok pg.
Hypothesis DW : delegates_well pg m.
Hypothesis HT : tracking k = true.
Notation H := any_header.

Lemma turns_out F : 
  (forall t v v', turns (out F) by_hand by_proxy t v v' -> turns pg by_hand by_proxy t v v') /\
  (forall t v v', turns_all (out F) by_hand by_proxy t v v' -> turns_all pg by_hand by_proxy t v v') /\
  (forall fs cs v v', turns_fields (out F) by_hand by_proxy fs cs v v' -> turns_fields pg by_hand by_proxy fs cs v v').
Proof.
  apply (turns_mind (out F) by_hand by_proxy
    (fun t v v' _ => turns pg by_hand by_proxy t v v') (fun t v v' _ => turns_all pg by_hand by_proxy t v v')
    (fun fs cs v v' _ => turns_fields pg by_hand by_proxy fs cs v v')); intros; try (econstructor; eassumption).
  - destruct (out_hand pg m F id h e) as (h' & Hi & _). eapply U_hand; eassumption.
  - rewrite impl_out in e. destruct (impl_for pg id) as [i0|h0|] eqn:EI; try discriminate e. injection e as ->. eapply (U_derived pg); eassumption.
  - rewrite impl_out in e. destruct (impl_for pg id) as [i0|h0|] eqn:EI; try discriminate e. injection e as ->. eapply (U_derived_enum pg); eassumption.
Qed.

Section Out.
Variable Mo : mem.
Variable B : N.
Notation images := (images k E m Mo B).
Notation region := (region k E m Mo B).
Notation effect := (effect pg by_hand by_proxy k m Mo B).
Notation effects := (effects pg by_hand by_proxy k m Mo B).

Lemma effects_of rec d :
  (forall t a v ss, repr E H m t a v -> wf_ty E t -> a + size_of E t <= umod -> rec t a = Some ss ->
     steps_ok E m 0 (size_of E t) (align_of E t) a ss) ->
  (forall t a v ss p cur, repr E H m t a v -> wf_ty E t -> a + size_of E t <= umod -> rec t a = Some ss ->
     region p a (size_of E t) cur ss -> exists v', turns pg by_hand by_proxy t v v' /\ repr E H Mo t (B + p) v') ->
  forall size al a s0, steps_ok E m d size al a s0 -> a + size <= umod -> forall ss p cur, expands rec a s0 = Some ss ->
    region p a size cur ss -> effects p a size s0.
Proof.
  intros HO HR.
  assert (HX : forall size al a s0, steps_ok E m d size al a s0 -> a + size <= umod -> forall ss, expands rec a s0 = Some ss ->
    steps_ok E m 0 size al a ss /\ (forall s i, In s ss -> touched E s i -> exists s', In s' s0 /\ touched E s' i)).
  { intros size al a s0. apply (expands_ok pg m rec d). intros; eapply HO; eassumption. }
  assert (G : forall size al a s0, steps_ok E m d size al a s0 -> a + size <= umod -> forall ss p cur, expands rec a s0 = Some ss ->
    images p a cur ss ->
    (forall i, i < size -> (forall s, In s ss -> ~ touched E s i) -> (exists s', In s' s0 /\ touched E s' i) -> Mo (B + (p + i)) = m (a + i)) ->
    forall s, In s s0 -> effect p a s).
  { apply (steps_ok_mut P E m d
      (fun size al a s _ => a + size <= umod -> forall ss p cur, expand rec a s = Some ss -> images p a cur ss ->
         (forall i, i < size -> (forall s1, In s1 ss -> ~ touched E s1 i) -> touched E s i -> Mo (B + (p + i)) = m (a + i)) -> effect p a s)
      (fun size al a s0 _ => a + size <= umod -> forall ss p cur, expands rec a s0 = Some ss -> images p a cur ss ->
         (forall i, i < size -> (forall s, In s ss -> ~ touched E s i) -> (exists s', In s' s0 /\ touched E s' i) -> Mo (B + (p + i)) = m (a + i)) ->
         forall s, In s s0 -> effect p a s)).
    - intros size al a off l tp n body H1 H2 H3 H4 H5 IH Ha ss p cur. rewrite expand_push. pose proof H4 as (_ & _ & H6).
      destruct (expands rec tp body) as [b|] eqn:Eb; [|discriminate]. intros Hx HI _; injection Hx as <-.
      inversion HI as [|? ? ? ? ? I1 I2]; subst. inversion I1 as [? ? ? ? ? ? ? ? J1 J2| | | | |]; subst.
      eapply X_push; [exact J1|]. inversion J2 as [? ? ? ? ? Q1 Q2]; subst. destruct (HX _ _ _ _ H5 H6 b Eb) as [_ T].
      constructor.
      + intros i Hi Hn. apply Q1; [exact Hi|]. intros s Hin Ht. destruct (T s i Hin Ht) as (s' & S1 & S2). exact (Hn s' S1 S2).
      + eapply IH; eauto.
    - intros size al a off l tp n H1 H2 H3 H4 Ha ss p cur Hx HI _; injection Hx as <-.
      inversion HI as [|? ? ? ? ? I1 I2]; subst. inversion I1; subst. eapply X_plain; eassumption.
    - intros size al a l tp n H1 Ha ss p cur Hx HI _; injection Hx as <-.
      inversion HI as [|? ? ? ? ? I1 I2]; subst. inversion I1; subst. eapply X_raw; eassumption.
    - intros size al a off l data H1 H2 H3 H4 H5 Ha ss p cur Hx HI _; injection Hx as <-.
      inversion HI as [|? ? ? ? ? I1 I2]; subst. inversion I1; subst. constructor; assumption.
    - intros size al a off t v H1 H2 H3 H4 H5 H6 Ha ss p cur Hx HI HB. cbn [expand] in Hx. apply off_inv in Hx. destruct Hx as (s1 & Hx & ->).
      destruct (HR t (a + off) v s1 (p + off) cur H2 H1 ltac:(lia) Hx) as (v' & V1 & V2); [|eapply X_field; eassumption].
      constructor; [|apply (images_shift pg); exact HI].
      intros i Hi Hn. replace (p + off + i) with (p + (off + i)) by lia. replace (a + off + i) with (a + (off + i)) by lia. apply HB; [lia| |].
      + intros s2 Hin T. apply in_map_iff in Hin. destruct Hin as (s3 & <- & Hin). apply shift_touched in T. destruct T as [_ T].
        replace (off + i - off) with i in T by lia. exact (Hn s3 Hin T).
      + unfold touched. cbn [touch]. lia.
    - intros size al a o H1 H2 H3 Ha ss p cur Hx HI _. constructor.
    - intros size al a Ha ss p cur Hx HI _; injection Hx as <-. inversion HI as [|? ? ? ? ? I1 I2]; subst. inversion I1.
    - intros size al a Ha ss p cur Hx HI _ s [].
    - intros size al a s s0 H1 IH1 H2 H3 IH2 Ha ss p cur Hx HI HB. cbn [expands] in Hx. apply cat_inv in Hx. destruct Hx as (s1 & s2 & X1 & X2 & ->).
      apply (images_app pg) in HI. destruct HI as [HI1 HI2].
      assert (T1 : forall x i, In x s1 -> touched E x i -> touched E s i).
      { assert (O1 : steps_ok E m d size al a [s]) by (constructor; [exact H1|intros ? ? []|constructor]).
        destruct (HX size al a [s] O1 Ha s1) as [_ T]; [cbn [expands]; rewrite X1; cbn; rewrite app_nil_r; reflexivity|].
        intros x i Hin Ht. destruct (T x i Hin Ht) as (s' & [<-|[]] & S2). exact S2. }
      assert (T2 : forall x i, In x s2 -> touched E x i -> exists s', In s' s0 /\ touched E s' i) by exact (proj2 (HX size al a s0 H3 Ha s2 X2)).
      intros s' [<-|Hin].
      + apply (IH1 Ha s1 p cur X1 HI1). intros i Hi Hn Ht. apply HB; [exact Hi| |exists s; split; [left; reflexivity|exact Ht]].
        intros x Hx Hxt. apply in_app_or in Hx. destruct Hx as [Hx|Hx]; [exact (Hn x Hx Hxt)|].
        destruct (T2 x i Hx Hxt) as (y & Y1 & Y2). exact (H2 y i Y1 Ht Y2).
      + apply (IH2 Ha s2 p _ X2 HI2); [|exact Hin]. intros i Hi Hn (y & Y1 & Y2). apply HB; [exact Hi| |exists y; split; [right; exact Y1|exact Y2]].
        intros x Hx Hxt. apply in_app_or in Hx. destruct Hx as [Hx|Hx]; [|exact (Hn x Hx Hxt)]. exact (H2 y i Y1 (T1 x i Hx Hxt) Y2). }
  intros size al a s0 Hs Ha ss p cur Hx HRg. inversion HRg as [? ? ? ? ? R1 R2]; subst. destruct (HX size al a s0 Hs Ha ss Hx) as [_ T]. constructor.
  - intros i Hi Hn. apply R1; [exact Hi|]. intros s Hin Ht. destruct (T s i Hin Ht) as (y & Y1 & Y2). exact (Hn y Y1 Y2).
  - eapply G; eauto.
Qed.
End Out.

(** What the impls achieve with the parts handed on, they achieve with all written out. *)
Lemma all_out : all_attain pg by_hand by_proxy k m -> forall F, all_achieve (out F) by_hand by_proxy k m.
Proof.
  intros [A1 A2].
  assert (G : forall F,
    (forall t a v ss, repr E H m t a v -> wf_ty E t -> a + size_of E t <= umod -> cl F t a = Some ss ->
       steps_ok E m 0 (size_of E t) (align_of E t) a ss) ->
    (forall Mo B t a v ss p cur, repr E H m t a v -> wf_ty E t -> a + size_of E t <= umod -> cl F t a = Some ss ->
       region k E m Mo B p a (size_of E t) cur ss -> exists v', turns pg by_hand by_proxy t v v' /\ repr E H Mo t (B + p) v') ->
    all_achieve (out F) by_hand by_proxy k m).
  { intros F HO HV. destruct DW as [D1 D2].
    assert (X : forall Mo B size al a d s0 p cur, steps_ok E m d size al a s0 -> a + size <= umod ->
      region k E m Mo B p a size cur (or_panic (expands (cl F) a s0)) -> effects pg by_hand by_proxy k m Mo B p a size s0).
    { intros Mo B size al a d s0 p cur Hs Ha HR. destruct (expands (cl F) a s0) as [ss|] eqn:Ex; cbn [or_panic] in HR.
      - exact (effects_of Mo B (cl F) d HO (HV Mo B) size al a s0 Hs Ha ss p cur Ex HR).
      - inversion HR as [? ? ? ? ? R1 R2]; subst. inversion R2 as [|? ? ? ? ? I1 I2]; subst. inversion I1. }
    split.
    - intros id h' Hh. destruct (out_hand pg m F id h' Hh) as (h & Hi & ->). intros a v Mo B p cur Hr Ha HR.
      apply (A1 id h Hi a v Mo B p Hr Ha). exact (X Mo B _ _ _ _ _ _ _ (D1 id h Hi a v Hr Ha) Ha HR).
    - intros w t Hw. apply out_proxied in Hw. intros a v Mo B p cur Hr Ha HR.
      apply (A2 w t Hw a v Mo B p Hr Ha). exact (X Mo B _ _ _ _ _ _ _ (D2 w t Hw a v Hr Ha) Ha HR). }
  induction F as [|F IH]; [apply G; [intros t a v ss _ _ _ Hc|intros Mo B t a v ss p cur _ _ _ Hc _]; discriminate Hc|].
  pose proof (out_wb pg m C HE LO PO DW F) as WB.
  apply G.
  - intros t a v ss Hr Hw Ha Hc.
    exact (ok_of (out F) PureCopy m 0 C HE LO (out_ok pg m F PO) WB t a v ss Hr Hw Ha (calls_make pg m LO PO F (S F) ltac:(lia) t a ss Hc)).
  - intros Mo B t a v ss p cur Hr Hw Ha Hc HR.
    destruct (proj1 (valid (out F) by_hand by_proxy k m 0 C HE LO (out_ok pg m F PO) WB IH HT Mo B) t a v Hr Hw Ha) as [X _].
    destruct (X ss p cur (calls_make pg m LO PO F (S F) ltac:(lia) t a ss Hc) HR) as (v' & V1 & V2). exists v'. split; [|exact V2].
    exact (proj1 (turns_out F) t v v' V1).
Qed.
End Proofs.
