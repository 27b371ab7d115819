(** * TypeFacts: layouts of supported types, zero-sized types, niches. *)
From Verif Require Import Base Types Storage Spec ArithFacts MemFacts.
From Coq Require Import ZifyBool ZifyNat ZifyN.
Local Open Scope N_scope.

Scheme repr_mind := Induction for repr Sort Prop
  with repr_elems_mind := Induction for repr_elems Sort Prop
  with repr_fields_mind := Induction for repr_fields Sort Prop.

Section TypeFacts.
Context {P : Params}.

Lemma vl_offs (vl : vlay) : 0 < pW ->
  cap_off vl + pW <= 3 * pW /\ ptr_off vl + pW <= 3 * pW /\ len_off vl + pW <= 3 * pW /\
  disjoint (cap_off vl) pW (ptr_off vl) pW /\
  disjoint (cap_off vl) pW (len_off vl) pW /\
  disjoint (ptr_off vl) pW (len_off vl) pW /\
  (pW | cap_off vl) /\ (pW | ptr_off vl) /\ (pW | len_off vl).
Proof.
  intros H. unfold disjoint, cap_off, ptr_off, len_off.
  destruct vl; cbn [cap_ix ptr_ix len_ix]; ands;
    try lia; try (apply N.divide_mul_r, N.divide_refl).
Qed.

Section Cfg.
Hypothesis C : cfg_ok.
Variable E : tenv.
Hypothesis HE : wf_env E.

Lemma usize_good : pW <= MVA -> good_layout usize_layout.
Proof.
  intros H. pose proof (imax_big (c_machine C)). pose proof (pW_vals (c_machine C)).
  unfold good_layout; cbn. ands; try lia.
  - apply pW_pow2, (c_machine C).
  - apply N.divide_refl.
Qed.

Lemma three_words_good : pW <= MVA -> good_layout (mkLayout (3 * pW) pW).
Proof.
  intros H. pose proof (imax_big (c_machine C)). pose proof (pW_vals (c_machine C)).
  unfold good_layout; cbn [l_size l_align]. ands; try lia.
  - apply pW_pow2, (c_machine C).
  - apply N.divide_mul_r, N.divide_refl.
Qed.

Lemma wf_good t : wf_ty E t -> good_layout (layout_of E t).
Proof.
  induction 1 as [l ok Hl|t _ _ Hp|vl t _ _ Hp|vl Hp|t n Ht IH Hn|l fs Hl|l d vss Hl|id d Hid];
    cbn [layout_of]; auto using usize_good, three_words_good.
  - destruct IH as (A & B & D & F). unfold good_layout, size_of in *; cbn [l_size l_align]. ands; auto.
    apply N.divide_mul_l. exact B.
  - rewrite Hid. destruct (HE id d Hid) as [Hw Hs].
    destruct Hw; try contradiction; assumption.
Qed.

Lemma named_size id d : E id = Some d -> layout_of E (TNamed id) = layout_of E d.
Proof.
  intros Hid. cbn [layout_of]. rewrite Hid. destruct (HE id d Hid) as [_ Hs].
  destruct d; try contradiction; reflexivity.
Qed.

(** ** Zero-sized values are represented everywhere *)
Lemma zst_repr H H' m m' t a v :
  repr E H m t a v -> wf_ty E t -> size_of E t = 0 ->
  forall a', repr E H' m' t a' v.
Proof.
  intros HR. revert t a v HR.
  apply (repr_mind P E H m
    (fun t a v _ => wf_ty E t -> size_of E t = 0 -> forall a', repr E H' m' t a' v)
    (fun t a vs _ => wf_ty E t -> (vs = [] \/ size_of E t = 0) -> forall a', repr_elems E H' m' t a' vs)
    (fun fs a vs _ => (forall o t, In (o, t) fs -> wf_ty E t /\ size_of E t = 0) ->
                      forall a', repr_fields E H' m' fs a' vs)).
  - intros l ok a n Hr Hok _ Hz a'. unfold size_of in Hz; cbn in Hz.
    constructor; [|exact Hok]. rewrite Hz in *. rewrite read_int_0 in *. exact Hr.
  - intros. unfold size_of in *; cbn in *. pose proof (pW_vals (c_machine C)). lia.
  - intros. unfold size_of in *; cbn [layout_of l_size] in *. pose proof (pW_vals (c_machine C)). lia.
  - intros. unfold size_of in *; cbn [layout_of l_size] in *. pose proof (pW_vals (c_machine C)). lia.
  - intros t n a vs Hn _ IH Hw Hz a'. inversion Hw; subst. constructor; [reflexivity|].
    apply IH; [assumption|]. unfold size_of in Hz; cbn [layout_of l_size] in Hz.
    apply N.eq_mul_0 in Hz. destruct Hz as [Hz|Hz]; [right; exact Hz|left].
    destruct vs; [reflexivity|cbn in Hz; lia].
  - intros l fs a vs _ IH Hw Hz a'. inversion Hw as [| | | | |? ? Hl Hf Hall| |]; subst.
    unfold size_of in Hz; cbn in Hz. constructor. apply IH.
    intros o t Hin. split; [eapply Hall; exact Hin|].
    clear - Hf Hin Hz. induction Hf as [|off u fs Hb _ _ _ _ IHf]; [contradiction|].
    destruct Hin as [Heq|Hin]; [inversion Heq; subst; lia|auto].
  - intros l d vss a k fs vs Hd Hk _ IH Hw Hz a'.
    inversion Hw as [| | | | | |? ? ? Hl Hdo Hf Hall|]; subst.
    unfold size_of in Hz; cbn in Hz. econstructor; [|exact Hk|].
    + rewrite <- Hd. apply read_discr_ext.
      destruct Hdo; auto; intros i Hi; lia.
    + apply IH. intros o t Hin. split; [eapply Hall; eassumption|].
      specialize (Hf _ _ Hk). clear - Hf Hin Hz. induction Hf as [|off u fs Hb _ _ _ _ IHf]; [contradiction|].
      destruct Hin as [Heq|Hin]; [inversion Heq; subst; lia|auto].
  - intros id d a v Hid _ IH Hw Hz a'. econstructor; [exact Hid|]. apply IH.
    + apply (HE id d Hid).
    + unfold size_of in *. rewrite <- (named_size id d Hid). exact Hz.
  - intros. constructor.
  - intros t a v vs _ IH1 _ IH2 Hw [Hx|Hz] a'; [discriminate|].
    constructor; [apply IH1; assumption|]. apply IH2; auto.
  - intros. constructor.
  - intros off t fs a v vs _ IH1 _ IH2 Hall a'.
    constructor.
    + apply IH1; apply (Hall off t); left; reflexivity.
    + apply IH2. intros o u Hin. apply (Hall o u). right; exact Hin.
Qed.

Lemma zst_elems H H' m m' t a vs :
  repr_elems E H m t a vs -> wf_ty E t -> size_of E t = 0 -> forall a', repr_elems E H' m' t a' vs.
Proof.
  intros HR Hw Hz. induction HR as [|t a v vs H1 H2 IH]; intros a'; constructor.
  - eapply zst_repr; eassumption.
  - apply IH; assumption.
Qed.

(** ** Niches *)
Lemma index_of_in n l k : index_of n l = Some k -> In n l.
Proof.
  revert k. induction l as [|x l IH]; intros k Hk; cbn in Hk; [discriminate|].
  destruct (N.eqb_spec x n); [left; assumption|].
  destruct (index_of n l); [|discriminate]. right. eapply IH; reflexivity.
Qed.

Lemma assoc_in n l k : assoc n l = Some k -> In (n, k) l.
Proof.
  induction l as [|[x j] l IH]; cbn; [discriminate|].
  destruct (N.eqb_spec x n); [|auto]. intros Hk; inversion Hk; subst. left; reflexivity.
Qed.

Lemma assoc_none n l : (forall k, ~ In (n, k) l) -> assoc n l = None.
Proof.
  induction l as [|[x j] l IH]; cbn; intros Hn; [reflexivity|].
  destruct (N.eqb_spec x n) as [->|]; [exfalso; eapply Hn; left; reflexivity|].
  apply IH. intros k Hk. eapply Hn; right; exact Hk.
Qed.

Lemma fields_in H m fs a vs o t :
  repr_fields E H m fs a vs -> In (o, t) fs -> exists v, repr E H m t (a + o) v.
Proof.
  induction 1 as [|off u fs a v vs Hv _ IH]; intros Hin; [contradiction|].
  destruct Hin as [Heq|Hin]; [inversion Heq; subst; eauto|auto].
Qed.

Lemma niche_read H m t off sz Q :
  niche_valid E t off sz Q ->
  forall a v, repr E H m t a v -> exists n, read_int m (a + off) sz = Some n /\ Q n.
Proof.
  induction 1 as
    [l ok Q HQ|t Q HQ|vl t Q HQ|vl t Q HQ|vl Q HQ|vl Q HQ|t n off sz Q Hn _ IH
    |l fs o t off sz Q Hin _ IH|l off sz vals vss Q HQ|l k vss fs o t off sz Q Hk Hin _ IH
    |l off sz df ns vss fs o t off' Q Hk Hin Hoff _ IH HQ|id d off sz Q Hid _ IH];
    intros a v Hv; inversion Hv; subst.
  - rewrite N.add_0_r. eauto.
  - rewrite N.add_0_r. eexists; split; [eassumption|]. apply HQ.
    match goal with Hx : valid_ref _ _ _ |- _ => apply Hx end.
  - eexists; split; [eassumption|]. apply HQ.
    match goal with Hx : vec_ok _ _ _ _ |- _ => apply Hx end.
  - eexists; split; [eassumption|]. apply HQ.
    match goal with Hx : vec_ok _ _ _ _ |- _ => apply Hx end.
  - eexists; split; [eassumption|]. apply HQ.
    match goal with Hx : vec_ok _ _ _ _ |- _ => apply Hx end.
  - eexists; split; [eassumption|]. apply HQ.
    match goal with Hx : vec_ok _ _ _ _ |- _ => apply Hx end.
  - match goal with Hx : repr_elems _ _ _ _ _ _ |- _ => inversion Hx; subst end.
    + cbn in Hn. lia.
    + eapply IH; eassumption.
  - match goal with Hx : repr_fields _ _ _ _ _ _ |- _ =>
      destruct (fields_in _ _ _ _ _ _ _ Hx Hin) as [v' Hv'] end.
    rewrite N.add_assoc. eapply IH; eassumption.
  - match goal with Hx : read_discr _ _ _ = _ |- _ => cbn in Hx; rename Hx into Hd end.
    destruct (read_int m (a + off) sz) as [x|] eqn:Ex; [|discriminate].
    exists x. split; [reflexivity|]. apply HQ. eapply index_of_in; exact Hd.
  - match goal with Hx : read_discr _ _ _ = _ |- _ => cbn in Hx; inversion Hx; subst end.
    match goal with Hx : nth_error _ _ = Some ?g |- _ =>
      match g with fs => fail 1 | _ => rewrite Hk in Hx; inversion Hx; subst end end.
    match goal with Hx : repr_fields _ _ _ _ _ _ |- _ =>
      destruct (fields_in _ _ _ _ _ _ _ Hx Hin) as [v' Hv'] end.
    rewrite N.add_assoc. eapply IH; eassumption.
  - match goal with Hx : read_discr _ _ _ = _ |- _ => cbn in Hx; rename Hx into Hd end.
    destruct (read_int m (a + (o + off')) sz) as [x|] eqn:Ex; [|discriminate].
    exists x. split; [reflexivity|].
    destruct (assoc x ns) as [j|] eqn:Ea.
    + eapply HQ. eapply assoc_in; exact Ea.
    + inversion Hd; subst.
      match goal with Hx : nth_error _ _ = Some ?g |- _ =>
        match g with fs => fail 1 | _ => rewrite Hk in Hx; inversion Hx; subst end end.
      match goal with Hx : repr_fields _ _ _ _ _ _ |- _ =>
        destruct (fields_in _ _ _ _ _ _ _ Hx Hin) as [v' Hv'] end.
      destruct (IH _ _ Hv') as (y & Hy & HQy). rewrite N.add_assoc in Ex.
      rewrite Ex in Hy. inversion Hy; subst. exact HQy.
  - match goal with Hx : E _ = Some ?g |- _ =>
      match g with d => fail 1 | _ => rewrite Hid in Hx; inversion Hx; subst end end.
    eapply IH; eassumption.
Qed.

End Cfg.
End TypeFacts.
