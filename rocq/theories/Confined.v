(** * Confined: what a program reads and which alignment it asks the allocator for. *)
From Verif Require Import Base Types Storage Serializer Serialize Spec TypeFacts SerValue SerRoot PropTree Prog ProgSer Alone AloneSer.
From Coq Require Import ZifyBool ZifyNat ZifyN.
Local Open Scope N_scope.

(** Nothing, or bytes of one of the ranges (address, bytes). *)
Definition within (bs : list (N * N)) (a n : N) : Prop :=
  n = 0 \/ exists x, In x bs /\ fst x <= a /\ a + n <= fst x + snd x.

(** Whatever the allocator answers and whatever its buffer holds, the program reads (apart from
    its buffer) bytes of the ranges [bs] only, when the memory is [m], and asks the
    allocator for alignment [al] only. *)
Fixpoint confined {S A} (m : mem) (bs : list (N * N)) (al : N) (p : prog S A) : Prop :=
  match p with
  | Done _ => True
  | IAlloc size align k => align = al /\ forall a, confined m bs al (k a)
  | IRealloc addr old align new k => align = al /\ forall a, confined m bs al (k a)
  | IDealloc addr size align k => align = al /\ confined m bs al k
  | ICopy src dst n k => within bs src n /\ confined m bs al k
  | IStore dst n data k => confined m bs al k
  | ILoad a n k => within bs a n /\ confined m bs al (k (cells m a n))
  | IRead a n k => forall l, confined m bs al (k l)
  end.

Lemma within_mono bs bs' a n : incl bs bs' -> within bs a n -> within bs' a n.
Proof. intros H [->|(x & H1 & H2)]; [left; reflexivity|right; exists x; auto]. Qed.
Lemma within_sub bs a n a' n' : a <= a' -> a' + n' <= a + n -> within bs a n -> within bs a' n'.
Proof. intros H1 H2 [->|(x & G1 & G2 & G3)]; [left; lia|right; exists x; split; [exact G1|lia]]. Qed.
Lemma within_in bs a n : In (a, n) bs -> within bs a n.
Proof. intros H. right. exists (a, n). cbn. split; [exact H|lia]. Qed.

Section Confined.
Variable m : mem.
Variable bs : list (N * N).
Variable al : N.

Lemma confined_pthen {S S' A B} (f : A -> S -> prog S' B) g p :
  confined m bs al p -> (forall a s, confined m bs al (f a s)) -> (forall e s, confined m bs al (g e s)) ->
  confined m bs al (pthen f g p).
Proof.
  intros Hp Hf Hg. induction p as [o|? ? k IH|? ? ? ? k IH|? ? ? k IH|? ? ? k IH|? ? ? k IH|? ? k IH|? ? k IH];
    cbn [pthen confined] in *; intuition. destruct o; auto; exact Logic.I.
Qed.

Definition hconf {S A} (hm : HM S A) : Prop := forall s, confined m bs al (hm s).
Lemma hconf_bind {S A B} (hm : HM S A) (f : A -> HM S B) : hconf hm -> (forall a, hconf (f a)) -> hconf (hbind hm f).
Proof. intros H1 H2 s. apply confined_pthen; [apply H1|intros; apply H2|intros; exact Logic.I]. Qed.
Lemma hconf_pu {S A} (c : M S A) : hconf (pu c).
Proof. intros s. exact Logic.I. Qed.
Lemma hconf_if {S A} (b : bool) (h1 h2 : HM S A) : (b = true -> hconf h1) -> (b = false -> hconf h2) -> hconf (if b then h1 else h2).
Proof. intros H1 H2. destruct b; auto. Qed.
Lemma hconf_catch {S A} (hm : HM S A) : hconf hm -> hconf (catch hm).
Proof. intros H s. apply confined_pthen; [apply H|intros; exact Logic.I|intros; exact Logic.I]. Qed.
End Confined.

Ltac hc1 := first [ apply hconf_pu | apply hconf_bind; [|intros ?] | apply hconf_if; intros ? ].
Ltac hcs := repeat hc1.

Section Vec.
Context {P : Params}.
Variable m : mem.
Variable bs : list (N * N).
Notation hconf := (hconf m bs SA).

Lemma hc_alloc c : hconf (h_alloc c).
Proof. unfold h_alloc. hcs. intros s. cbn. split; [reflexivity|]. intros x. destruct (x =? 0); exact Logic.I. Qed.
Lemma hc_realloc c : hconf (h_realloc c).
Proof. unfold h_realloc. hcs. intros s. cbn. split; [reflexivity|]. intros x. destruct (x =? 0); exact Logic.I. Qed.
Lemma hc_dealloc : hconf h_dealloc.
Proof. unfold h_dealloc. hcs. intros s. cbn. auto. Qed.
Lemma hc_with_capacity c : hconf (h_with_capacity c).
Proof. unfold h_with_capacity, h_with_capacity_unchecked. repeat first [apply hc_alloc | hc1]. Qed.

Definition src_within (s : source) (n : N) : Prop := match s with SMem a => within bs a n | SLocal _ => True end.
Lemma hc_write_slice pos l n s : (l_size l <> 0 -> src_within s (l_size l * n)) -> hconf (h_write_slice pos l n s).
Proof.
  intros H. unfold h_write_slice. hcs. intros h.
  destruct (N.eqb_spec (l_size l) 0) as [Z|Z]; [discriminate|]. specialize (H Z).
  destruct (_ && _); [|exact Logic.I]. destruct s; cbn in *; auto.
Qed.
Lemma hc_set_pos n : hconf (h_set_pos n).
Proof. unfold h_set_pos. hcs. Qed.
Lemma hc_push_slice_unchecked l n s z : (l_size l <> 0 -> src_within s (l_size l * n)) -> hconf (h_push_slice_unchecked l n s z).
Proof.
  intros H. unfold h_push_slice_unchecked. do 3 (apply hconf_bind; [apply hconf_pu|intros _]).
  apply hconf_if; intros _; [apply hconf_pu|]. apply hconf_bind; [apply hconf_pu|intros pos].
  apply hconf_bind; [apply hc_write_slice, H|intros _]. hcs.
Qed.
Lemma hc_grow n : hconf (h_grow_for_reserve n).
Proof.
  unfold h_grow_for_reserve. do 6 (apply hconf_bind; [apply hconf_pu|intros ?]).
  apply hconf_if; intros _.
  - apply hconf_bind; [apply hc_alloc|intros p]. hcs.
  - apply hconf_bind; [apply hc_realloc|intros p]. hcs.
Qed.
Lemma hc_reserve n : hconf (h_reserve n).
Proof.
  unfold h_reserve. apply hconf_bind; [apply hconf_pu|intros ?]. apply hconf_bind; [apply hconf_pu|intros ?].
  apply hconf_if; intros _; [apply hc_grow|apply hconf_pu].
Qed.
Lemma hc_align a : hconf (h_align a).
Proof. unfold h_align. do 5 (apply hconf_bind; [apply hconf_pu|intros ?]). apply hc_set_pos. Qed.
Lemma hc_align_for l : hconf (h_align_for l).
Proof. unfold h_align_for. apply hconf_if; intros _; [apply hc_align|apply hconf_pu]. Qed.
Lemma hc_align_after l : hconf (h_align_after l).
Proof. unfold h_align_after, h_align_after_any. apply hconf_if; intros _; [apply hc_align|apply hconf_pu]. Qed.
Lemma hc_push_slice l n s : (l_size l <> 0 -> src_within s (l_size l * n)) -> hconf (h_push_slice l n s).
Proof.
  intros H. unfold h_push_slice. apply hconf_if; intros _; [apply hconf_pu|].
  apply hconf_bind; [apply hc_align_for|intros _]. apply hconf_bind; [apply hconf_pu|intros z].
  apply hconf_bind; [apply hc_reserve|intros _]. apply hconf_bind; [apply hconf_pu|intros pos].
  apply hconf_bind; [apply hc_push_slice_unchecked, H|intros _]. apply hconf_bind; [apply hc_align_after|intros _]. apply hconf_pu.
Qed.
Lemma hc_push_empty_slice l n : hconf (h_push_empty_slice l n).
Proof.
  unfold h_push_empty_slice.
  apply hconf_bind; [apply hc_align_for|intros _]. apply hconf_bind; [apply hconf_pu|intros z].
  apply hconf_bind; [apply hc_reserve|intros _]. apply hconf_bind; [apply hconf_pu|intros pos].
  apply hconf_bind; [apply hconf_pu|intros np]. apply hconf_bind; [apply hc_set_pos|intros _].
  apply hconf_bind; [apply hc_align_after|intros _]. apply hconf_pu.
Qed.
Lemma hc_shrink : hconf h_shrink_to_fit.
Proof.
  unfold h_shrink_to_fit. do 3 (apply hconf_bind; [apply hconf_pu|intros ?]). apply hconf_if; intros _; [|apply hconf_pu].
  apply hconf_bind; [|intros p; hcs]. apply hconf_if; intros _; [|apply hc_realloc].
  apply hconf_bind; [apply hc_dealloc|intros _]. apply hconf_pu.
Qed.
Lemma hc_drop : hconf h_drop.
Proof. unfold h_drop. apply hconf_bind; [apply hconf_pu|intros cap]. apply hconf_if; intros _; [apply hc_dealloc|apply hconf_pu]. Qed.

(** The bytes a call of the storage reads. *)
Definition hop_reads (o : hop) : list (N * N) :=
  match o with
  | HPush l a => [(a, l_size l)]
  | HPushSlice l n a => [(a, l_size l * n)]
  | HPushBytes n a => [(a, n)]
  | _ => []
  end.
Lemma hc_op o : incl (hop_reads o) bs -> hconf (h_run_op o).
Proof.
  intros Hi.
  destruct o; cbn [h_run_op hop_reads] in *; (apply hconf_bind; [|intros ?; apply hconf_pu]);
    try (apply hc_push_slice; intros _; cbn [src_within u8_layout l_size]; apply within_in, Hi; left; f_equal; lia).
  - apply hc_push_empty_slice. - apply hc_push_empty_slice.
  - apply hc_reserve. - apply hc_align_for. - apply hc_align_after. - apply hc_align.
  - apply hc_set_pos. - apply hc_shrink.
Qed.
Lemma hc_ops os : incl (flat_map hop_reads os) bs -> hconf (h_run_ops os).
Proof.
  induction os as [|o os IH]; cbn [h_run_ops flat_map]; intros Hi; [apply hconf_pu|].
  apply hconf_bind; [apply hconf_catch, hc_op|intros _; apply IH]; intros x Hx; apply Hi, in_app_iff; auto.
Qed.
End Vec.

Section Ser.
Context {P : Params}.
Variable m : mem.
Variable bs : list (N * N).
Notation hconf := (hconf m bs SA).

Lemma hc_lift {A} (h : HM hdr A) : hconf h -> hconf (hlift h).
Proof. intros H s. apply confined_pthen; [apply H|intros; exact Logic.I|intros; exact Logic.I]. Qed.
Lemma hc_push_raw_slice l a n : (l_size l <> 0 -> within bs a (l_size l * n)) -> hconf (h_push_raw_slice (mkHslice l a n)).
Proof. intros H. apply hc_lift, hc_push_slice. exact H. Qed.
Lemma hc_write_local p l d : hconf (hlift (h_write p l (SLocal d))).
Proof. apply hc_lift, hc_write_slice. intros _. exact Logic.I. Qed.
Lemma hc_overwrite_ptr k p q : hconf (h_overwrite_ptr k p q).
Proof.
  destruct k; cbn [h_overwrite_ptr]; try (intros s; exact Logic.I).
  - unfold h_po_overwrite_ptr. do 3 (apply hconf_bind; [apply hconf_pu|intros _]). apply hc_write_local.
  - unfold h_co_overwrite_ptr. do 3 (apply hconf_bind; [apply hconf_pu|intros _]).
    apply hconf_bind; [apply hc_lift, hconf_pu|intros sa]. apply hconf_bind; [apply hconf_pu|intros ta].
    apply hconf_bind; [apply hc_write_local|intros _]. apply hconf_bind; [apply hconf_pu|intros pt]. apply hconf_pu.
Qed.
Lemma hc_push_and_process_slice k l a n ad hp : (l_size l <> 0 -> within bs a (l_size l * n)) -> hconf hp ->
  hconf (h_push_and_process_slice k (mkHslice l a n) ad hp).
Proof.
  intros Hw Hp.
  assert (Hpw : hconf (h_pw_push_and_process_slice k (mkHslice l a n) ad hp)).
  { unfold h_pw_push_and_process_slice.
    apply hconf_bind; [apply hconf_pu|intros b]. apply hconf_bind; [apply hc_push_raw_slice, Hw|intros pos].
    apply hconf_bind; [apply hconf_pu|intros pp]. apply hconf_bind; [apply hc_overwrite_ptr|intros _].
    apply hconf_bind; [apply hconf_pu|intros _]. apply hconf_bind; [exact Hp|intros _].
    apply hconf_bind; [apply hconf_pu|intros _]. apply hconf_pu. }
  destruct k; cbn [h_push_and_process_slice]; try exact Hpw.
  - unfold h_dflt_push_and_process_slice.
    apply hconf_bind; [apply hc_push_raw_slice, Hw|intros pos]. apply hconf_bind; [exact Hp|intros _]. apply hconf_pu.
  - unfold h_pt_push_and_process_slice.
    apply hconf_bind; [apply hconf_pu|intros b]. apply hconf_bind; [apply hc_push_raw_slice, Hw|intros pos].
    apply hconf_bind; [apply hconf_pu|intros _]. apply hconf_bind; [exact Hp|intros _].
    apply hconf_bind; [apply hconf_pu|intros _]. apply hconf_pu.
Qed.
Lemma hc_ser_push_slice k l a n ad : (l_size l <> 0 -> within bs a (l_size l * n)) -> hconf (h_ser_push_slice k (mkHslice l a n) ad).
Proof.
  intros Hw.
  assert (Hpw : hconf (h_pw_push_slice k (mkHslice l a n) ad)).
  { unfold h_pw_push_slice. apply hconf_bind; [apply hc_push_raw_slice, Hw|intros pos]. apply hconf_bind; [apply hconf_pu|intros b].
    apply hconf_bind; [apply hconf_pu|intros pp]. apply hconf_bind; [apply hc_overwrite_ptr|intros _]. apply hconf_pu. }
  destruct k; cbn [h_ser_push_slice]; try exact Hpw.
  - apply hc_push_and_process_slice; [exact Hw|apply hconf_pu].
  - apply hc_push_raw_slice, Hw.
Qed.
Lemma hc_overwrite k ad l d : hconf (h_overwrite k ad l d).
Proof.
  destruct k; cbn [h_overwrite]; try apply hconf_pu. unfold h_do_overwrite.
  apply hconf_bind; [apply hconf_pu|intros pm]. apply hconf_bind; [apply hconf_pu|intros pos]. apply hc_write_local.
Qed.
Lemma hc_overwrite_with k hw : hconf hw -> hconf (h_overwrite_with k hw).
Proof. destruct k; cbn [h_overwrite_with]; intros H; first [exact H|apply hconf_pu]. Qed.
Lemma hc_correct_all sh l : hconf (h_correct_all sh l).
Proof.
  induction l as [|p l IH]; cbn [h_correct_all]; [apply hconf_pu|]. apply hconf_bind; [|intros _; exact IH].
  intros h. unfold h_correct_ptr. destruct (_ && _); [|exact Logic.I]. cbn. intros c. destruct (read_word _ _); exact Logic.I.
Qed.
Lemma hc_finalize k : hconf (h_finalize k).
Proof.
  destruct k; cbn [h_finalize]; try apply hconf_pu. unfold h_co_finalize.
  apply hconf_bind; [apply hc_lift, hconf_pu|intros sp]. apply hconf_bind; [apply hconf_pu|intros pt].
  apply hconf_bind; [apply hconf_if; intros _; [apply hc_lift, hc_correct_all|apply hconf_pu]|intros _].
  apply hc_lift. induction (pt_past pt) as [|g gs IH]; cbn [h_correct_past]; [apply hconf_pu|].
  apply hconf_bind; [apply hconf_if; intros _; [apply hc_correct_all|apply hconf_pu]|intros _; exact IH].
Qed.
Lemma hc_overwrite_empty k vo d a : hconf (h_overwrite_empty k vo d a).
Proof.
  unfold h_overwrite_empty. cbv zeta. repeat (apply hconf_if; intros _);
    repeat (apply hconf_bind; [apply hconf_pu|intros ?]); try apply hc_overwrite.
  apply hconf_bind; [apply hc_overwrite|intros _]. apply hconf_bind; [apply hconf_pu|intros ?]. apply hc_overwrite.
Qed.

Lemma hc_load_int {B} a sz (f : N -> HM hz B) : within bs a sz ->
  (forall x, read_int m a sz = Some x -> hconf (f x)) -> hconf (hbind (h_load_int a sz) f).
Proof.
  intros Hw Hf s. unfold hbind, h_load_int. cbn [pthen confined]. split; [exact Hw|].
  rewrite read_cells by lia. destruct (read_int m a sz) as [x|]; [|exact Logic.I]. apply Hf. reflexivity.
Qed.
Lemma hc_load_word {B} a (f : N -> HM hz B) : within bs a pW ->
  (forall x, read_word m a = Some x -> hconf (f x)) -> hconf (hbind (h_load_word a) f).
Proof. apply hc_load_int. Qed.

Lemma hc_for_elems n : forall a sz hf fp ps, places_elems fp sz n a = Some ps -> incl ps bs -> within bs a (sz * N.of_nat n) ->
  (forall x qs, fp x = Some qs -> incl qs bs -> within bs x sz -> hconf (hf x)) -> hconf (h_for_elems n a sz hf).
Proof.
  induction n as [|n IH]; intros a sz hf fp ps Hp Hi Hw Hf; cbn [h_for_elems places_elems] in *; [apply hconf_pu|].
  destruct (fp a) as [q1|] eqn:E1; [|discriminate]. destruct (places_elems fp sz n (a + sz)) as [q2|] eqn:E2; [|discriminate].
  cbn [cat2] in Hp. injection Hp as <-.
  assert (sz * N.of_nat (S n) = sz + sz * N.of_nat n) as Hm by lia. rewrite Hm in Hw.
  apply hconf_bind.
  - apply (Hf a q1 E1). { intros x Hx. apply Hi, in_app_iff. auto. } eapply within_sub; [| |exact Hw]; lia.
  - intros _. apply (IH _ _ _ fp q2 E2); [|eapply within_sub; [| |exact Hw]; lia|exact Hf].
    intros x Hx. apply Hi, in_app_iff. auto.
Qed.
Lemma hc_for_fields fs : forall a sz hf fp ps, places_fields fp fs a = Some ps -> incl ps bs -> within bs a sz ->
  (forall o t qs, In (o, t) fs -> fp t (a + o) = Some qs -> incl qs bs -> hconf (hf t (a + o))) ->
  hconf (h_for_fields fs a hf).
Proof.
  induction fs as [|[o t] fs IH]; intros a sz hf fp ps Hp Hi Hw Hf; cbn [h_for_fields places_fields] in *; [apply hconf_pu|].
  destruct (fp t (a + o)) as [q1|] eqn:E1; [|discriminate]. destruct (places_fields fp fs a) as [q2|] eqn:E2; [|discriminate].
  cbn [cat2] in Hp. injection Hp as <-.
  apply hconf_bind.
  - apply (Hf o t q1); [left; reflexivity|exact E1|]. intros x Hx. apply Hi, in_app_iff. auto.
  - intros _. apply (IH a sz hf fp q2 E2); [|exact Hw|].
    + intros x Hx. apply Hi, in_app_iff. auto.
    + intros o' t' qs Hin. apply Hf. right. exact Hin.
Qed.

Section Impl.
Variable k : kind.
Variable E : tenv.
Hypothesis HE : wf_env E.

Lemma vec_words vl : cap_off vl + pW <= 3 * pW /\ ptr_off vl + pW <= 3 * pW /\ len_off vl + pW <= 3 * pW.
Proof. destruct vl; unfold cap_off, ptr_off, len_off, cap_ix, ptr_ix, len_ix; lia. Qed.

Lemma hc_ser_data fuel : forall t a ps, wf_ty E t -> places E m fuel t a = Some ps -> incl ps bs -> within bs a (size_of E t) ->
  hconf (h_ser_data k E fuel t a).
Proof.
  induction fuel as [|fuel IH]; intros t a ps Hw Hp Hi Ha; cbn [h_ser_data places] in *; [discriminate|].
  assert (Hsz : size_of E t = size_of E (resolve E t)).
  { destruct t; cbn [resolve]; auto. destruct (E id) as [d|] eqn:Ei; auto. unfold size_of. rewrite (named_size E HE id d Ei). reflexivity. }
  pose proof (wf_resolve E t HE Hw) as Hw'. rewrite Hsz in Ha. clear Hsz Hw. revert Hp Hw' Ha.
  destruct (resolve E t) as [l ok|t'|vl t'|vl|t' n|l fs|l d vss|id]; intros Hp Hw Ha.
  - apply hconf_pu.
  - unfold h_ser_box. destruct (N.eqb_spec (size_of E t') 0) as [Z|Z]; [apply hconf_pu|].
    apply hconf_bind; [apply hconf_pu|intros ad].
    apply hc_load_word. { eapply within_sub; [| |exact Ha]; [lia|]. change (size_of E (TBox t')) with pW. lia. }
    intros p Hr. rewrite Hr in Hp. destruct (places E m fuel t' p) as [qs|] eqn:Eq; [|discriminate].
    cbn [cat2] in Hp. injection Hp as <-.
    assert (Hpw : within bs p (size_of E t')) by (apply within_in, Hi; left; reflexivity).
    apply hconf_bind; [|intros _; apply hconf_pu]. apply hc_push_and_process_slice.
    + intros _. replace (l_size (layout_of E t') * 1) with (size_of E t') by (unfold size_of; lia). exact Hpw.
    + apply (IH _ _ qs); [inversion Hw; assumption|exact Eq| |exact Hpw]. intros x Hx. apply Hi. right. exact Hx.
  - pose proof (vec_words vl) as (V1 & V2 & V3). unfold h_ser_vec.
    assert (H3 : size_of E (TVec vl t') = 3 * pW) by reflexivity. rewrite H3 in Ha.
    destruct (N.eqb_spec (size_of E t') 0) as [Z|Z]; [apply hconf_pu|].
    apply hc_load_word; [eapply within_sub; [| |exact Ha]; lia|]. intros len Hl. rewrite Hl in Hp.
    destruct (read_word m (a + ptr_off vl)) as [p|] eqn:Ep; [|discriminate].
    apply hconf_if; intros Z0.
    + apply hc_overwrite_with. apply hc_load_word; [eapply within_sub; [| |exact Ha]; lia|]. intros cap _.
      apply hconf_if; intros _; [|apply hconf_pu]. apply hconf_bind; [apply hconf_pu|intros vo]. apply hc_overwrite_empty.
    + apply hconf_bind; [|intros _].
      { apply hc_overwrite_with. apply hc_load_word; [eapply within_sub; [| |exact Ha]; lia|]. intros cap _.
        apply hconf_if; intros _; [|apply hconf_pu]. do 2 (apply hconf_bind; [apply hconf_pu|intros ?]). apply hc_overwrite. }
      do 2 (apply hconf_bind; [apply hconf_pu|intros ?]).
      apply hc_load_word; [eapply within_sub; [| |exact Ha]; lia|]. intros p' Hp'. rewrite Hp' in Ep. injection Ep as ->.
      rewrite Z0 in Hp. cbn [orb] in Hp.
      destruct (places_elems (places E m fuel t') (size_of E t') (N.to_nat len) p) as [qs|] eqn:Eq; cbn [cat2] in Hp; [|discriminate]. injection Hp as <-.
      assert (Hpw : within bs p (size_of E t' * len)) by (apply within_in, Hi; left; reflexivity).
      apply hconf_bind; [|intros _; apply hconf_pu]. apply hc_push_and_process_slice; [intros _; exact Hpw|].
      eapply hc_for_elems; [exact Eq| | |].
      * intros x Hx. apply Hi. right. exact Hx.
      * rewrite N2Nat.id. exact Hpw.
      * intros x qs' Hq Hiq Hx. apply (IH _ _ qs'); auto. inversion Hw; assumption.
  - pose proof (vec_words vl) as (V1 & V2 & V3). unfold h_ser_string.
    assert (H3 : size_of E (TString vl) = 3 * pW) by reflexivity. rewrite H3 in Ha.
    apply hc_load_word; [eapply within_sub; [| |exact Ha]; lia|]. intros len Hl. rewrite Hl in Hp.
    destruct (read_word m (a + ptr_off vl)) as [p|] eqn:Ep; [|discriminate].
    apply hconf_if; intros Z0.
    + apply hc_overwrite_with. apply hc_load_word; [eapply within_sub; [| |exact Ha]; lia|]. intros cap _.
      apply hconf_if; intros _; [|apply hconf_pu]. apply hconf_bind; [apply hconf_pu|intros vo]. apply hc_overwrite_empty.
    + apply hconf_bind; [|intros _].
      { apply hc_overwrite_with. apply hc_load_word; [eapply within_sub; [| |exact Ha]; lia|]. intros cap _.
        apply hconf_if; intros _; [|apply hconf_pu]. do 2 (apply hconf_bind; [apply hconf_pu|intros ?]). apply hc_overwrite. }
      do 2 (apply hconf_bind; [apply hconf_pu|intros ?]).
      apply hc_load_word; [eapply within_sub; [| |exact Ha]; lia|]. intros p' Hp'. rewrite Hp' in Ep. injection Ep as ->.
      rewrite Z0 in Hp. injection Hp as <-.
      apply hconf_bind; [|intros _; apply hconf_pu]. apply hc_ser_push_slice. intros _. cbn [u8_layout l_size].
      apply within_in, Hi. left. f_equal. lia.
  - eapply hc_for_elems; [exact Hp|exact Hi| |].
    + rewrite N2Nat.id. exact Ha.
    + intros x qs' Hq Hiq Hx. apply (IH _ _ qs'); auto. inversion Hw; assumption.
  - eapply hc_for_fields; [exact Hp|exact Hi|exact Ha|]. intros o t' qs Hin Hq Hiq.
    inversion Hw as [| | | | |? ? G1 G2 G3| |]; subst.
    apply (IH _ _ qs); [apply (G3 o t' Hin)|exact Hq|exact Hiq|].
    assert (o + size_of E t' <= l_size l).
    { clear - G2 Hin. induction G2; [destruct Hin|]. destruct Hin as [Hx|Hin]; [injection Hx as -> ->; assumption|auto]. }
    eapply within_sub; [| |exact Ha]; [lia|]. change (size_of E (TStruct l fs)) with (l_size l). lia.
  - inversion Hw as [| | | | | |? ? ? G1 G2 G3 G4|]; subst.
    change (size_of E (TEnum l d vss)) with (l_size l) in Ha.
    assert (Hfs : forall v, read_discr m a d = Some v ->
      hconf (match nth_error vss v with Some fs => h_for_fields fs a (h_ser_data k E fuel) | None => hub end)).
    { intros v Hv. rewrite Hv in Hp. destruct (nth_error vss v) as [fs|] eqn:Ev; [|intros s; exact Logic.I].
      eapply hc_for_fields; [exact Hp|exact Hi|exact Ha|]. intros o t' qs Hin Hq Hiq.
      apply (IH _ _ qs); [apply (G4 v fs o t' Ev Hin)|exact Hq|exact Hiq|].
      assert (o + size_of E t' <= l_size l).
      { pose proof (G3 v fs Ev) as G. clear - G Hin. induction G; [destruct Hin|]. destruct Hin as [Hx|Hin]; [injection Hx as -> ->; assumption|auto]. }
      eapply within_sub; [| |exact Ha]; lia. }
    unfold h_variant, read_discr in *. destruct d as [v|off sz vals|off sz df ns].
    + intros s. unfold hbind. cbn [hret pu ret pthen]. apply Hfs. reflexivity.
    + intros s. unfold hbind at 1. unfold hbind at 1. unfold h_load_int. cbn [pthen confined].
      inversion G2; subst. split; [eapply within_sub; [| |exact Ha]; lia|].
      rewrite read_cells by lia. destruct (read_int m (a + off) sz) as [x|]; [|exact Logic.I]. cbn [pthen].
      destruct (index_of x vals) as [v|]; [|exact Logic.I]. cbn [hret pu ret pthen]. apply Hfs. reflexivity.
    + intros s. unfold hbind at 1. unfold hbind at 1. unfold h_load_int. cbn [pthen confined].
      inversion G2; subst. split; [eapply within_sub; [| |exact Ha]; lia|].
      rewrite read_cells by lia. destruct (read_int m (a + (o + off')) sz) as [x|]; [|exact Logic.I]. cbn [pthen].
      cbn [hret pu ret pthen]. apply Hfs. destruct (assoc x ns); reflexivity.
  - discriminate.
Qed.

Lemma hc_serialize_value fuel t a ps : wf_ty E t -> places E m fuel t a = Some ps -> incl ps bs -> within bs a (size_of E t) ->
  hconf (h_serialize_value k E fuel t a).
Proof.
  intros Hw Hp Hi Ha. unfold h_serialize_value.
  assert (Hr : hconf (h_push_raw_slice (mkHslice (layout_of E t) a 1))).
  { apply hc_push_raw_slice. intros _. replace (l_size (layout_of E t) * 1) with (size_of E t) by (unfold size_of; lia). exact Ha. }
  pose proof (hc_ser_data fuel t a ps Hw Hp Hi Ha) as Hd.
  destruct k; cbn [h_serialize_value_with]; (apply hconf_bind; [exact Hr|intros pos]);
    try (apply hconf_bind; [apply hconf_pu|intros _]); (apply hconf_bind; [exact Hd|intros _; apply hconf_pu]).
Qed.
Lemma hc_serialize_all fuel vs :
  Forall (fun x => wf_ty E (fst x) /\ within bs (snd x) (size_of E (fst x)) /\
    exists ps, places E m fuel (fst x) (snd x) = Some ps /\ incl ps bs) vs ->
  hconf (h_serialize_all k E fuel vs).
Proof.
  intros H. unfold h_serialize_all. apply hconf_bind; [|intros ps; apply hconf_bind; [apply hc_finalize|intros _; apply hconf_pu]].
  induction H as [|[t a] vs (H1 & H2 & ps & H3 & H4) Hvs IH]; cbn [h_serialize_values]; [apply hconf_pu|].
  apply hconf_bind; [apply (hc_serialize_value fuel t a ps H1 H3 H4 H2)|intros pos].
  apply hconf_bind; [exact IH|intros qs; apply hconf_pu].
Qed.
End Impl.
End Ser.

(** A value in memory has places; one without bytes owns none. *)
Section ReprPlaces.
Context {P : Params}.
Variable E : tenv.
Hypothesis HE : wf_env E.
Hypothesis HW : 0 < pW.
Variable H : header.
Variable m : mem.

Lemma repr_places f : forall t a v, repr E H m t a v -> wf_ty E t -> (vdepth v < f)%nat ->
  exists ps, places E m f t a = Some ps /\ (size_of E t = 0 -> ps = []).
Proof.
  induction f as [|f IH]; intros t a v Hr Hw Hd; [lia|].
  assert (Hel : forall t' vs x, repr_elems E H m t' x vs -> wf_ty E t' -> (forall v', In v' vs -> (vdepth v' < f)%nat) ->
    exists ps, places_elems (places E m f t') (size_of E t') (length vs) x = Some ps /\ (size_of E t' = 0 -> ps = [])).
  { intros t' vs. induction vs as [|v' vs IHv]; intros x Hre Hw' Hdv; cbn [length places_elems].
    - exists []. auto.
    - inversion Hre as [|? ? ? ? A1 A2]; subst. destruct (IH t' x v' A1 Hw' (Hdv v' (or_introl eq_refl))) as (p1 & B1 & B2).
      destruct (IHv (x + size_of E t') A2 Hw' (fun v2 h => Hdv v2 (or_intror h))) as (p2 & B3 & B4).
      exists (p1 ++ p2). rewrite B1, B3. split; [reflexivity|]. intros Z. rewrite (B2 Z), (B4 Z). reflexivity. }
  assert (Hfl : forall l fs vs x, repr_fields E H m fs x vs -> fields_ok E l fs -> (forall o t', In (o, t') fs -> wf_ty E t') ->
    (forall v', In v' vs -> (vdepth v' < f)%nat) ->
    exists ps, places_fields (places E m f) fs x = Some ps /\ (l_size l = 0 -> ps = [])).
  { intros l fs. induction fs as [|[o t'] fs IHv]; intros vs x Hre Hfo Hw' Hdv; cbn [places_fields].
    - exists []. auto.
    - inversion Hre as [|? ? ? ? v' vs' A1 A2]; subst. inversion Hfo as [|? ? ? F1 F2 F3 F4 F5]; subst.
      destruct (IH t' (x + o) v' A1 (Hw' o t' (or_introl eq_refl)) (Hdv v' (or_introl eq_refl))) as (p1 & B1 & B2).
      destruct (IHv vs' x A2 F5 (fun o2 t2 h => Hw' o2 t2 (or_intror h)) (fun v2 h => Hdv v2 (or_intror h))) as (p2 & B3 & B4).
      exists (p1 ++ p2). rewrite B1, B3. split; [reflexivity|]. intros Z. rewrite (B2 ltac:(lia)), (B4 Z). reflexivity. }
  assert (Hmax : forall vs v', In v' vs -> (vdepth v' <= list_max (map vdepth vs))%nat).
  { intros vs v' Hin. pose proof (proj1 (list_max_le (map vdepth vs) _) (le_n _)) as Hf.
    rewrite Forall_forall in Hf. apply Hf. apply in_map. exact Hin. }
  assert (Hst : forall l fs vs x, repr_fields E H m fs x vs -> wf_ty E (TStruct l fs) -> (list_max (map vdepth vs) < f)%nat ->
    exists ps, places_fields (places E m f) fs x = Some ps /\ (l_size l = 0 -> ps = [])).
  { intros l fs vs x A Hw' Hd'. inversion Hw' as [| | | | |? ? G1 G2 G3| |]; subst.
    apply (Hfl l fs vs x A G2 G3). intros v' Hin. specialize (Hmax vs v' Hin). lia. }
  assert (Hen : forall l d vss kk fs vs x, repr_fields E H m fs x vs -> nth_error vss kk = Some fs -> wf_ty E (TEnum l d vss) ->
    (list_max (map vdepth vs) < f)%nat ->
    exists ps, places_fields (places E m f) fs x = Some ps /\ (l_size l = 0 -> ps = [])).
  { intros l d vss kk fs vs x A En Hw' Hd'. inversion Hw' as [| | | | | |? ? ? G1 G2 G3 G4|]; subst.
    apply (Hfl l fs vs x A (G3 kk fs En) (fun o t' => G4 kk fs o t' En)). intros v' Hin. specialize (Hmax vs v' Hin). lia. }
  inversion Hr as [l ok a0 n A1 A2|t' a0 p v' A1 A2 A3 A4|vl t' a0 c p vs A1 A2 A3 A4 A5 A6|vl a0 c p bs A1 A2 A3 A4 A5 A6
    |t' n a0 vs A1 A2|l fs a0 vs A1|l d vss a0 kk fs vs A1 A2 A3|id d a0 v' A1 A2]; subst; cbn [places resolve vdepth] in *.
  - exists []. auto.
  - change (size_of E (TBox t')) with pW. destruct (N.eqb_spec (size_of E t') 0); [exists []; split; [reflexivity|lia]|].
    rewrite A1. inversion Hw; subst. destruct (IH t' p v' A4 ltac:(assumption) ltac:(lia)) as (ps & B & _). rewrite B.
    eexists. split; [reflexivity|lia].
  - change (size_of E (TVec vl t')) with (3 * pW). rewrite A2, A3. destruct (_ || _); [exists []; split; [reflexivity|lia]|].
    inversion Hw; subst. rewrite Nat2N.id. destruct (Hel t' vs p A6 ltac:(assumption)) as (ps & B & _).
    { intros v' Hin. specialize (Hmax vs v' Hin). lia. } rewrite B. eexists. split; [reflexivity|lia].
  - change (size_of E (TString vl)) with (3 * pW). rewrite A2, A3. destruct (_ =? 0); eexists; (split; [reflexivity|lia]).
  - inversion Hw; subst. rewrite Nat2N.id. destruct (Hel t' vs a A2 ltac:(assumption)) as (ps & B & B').
    { intros v' Hin. specialize (Hmax vs v' Hin). lia. } exists ps. split; [exact B|]. intros Z.
    change (size_of E (TArray t' (N.of_nat (length vs)))) with (size_of E t' * N.of_nat (length vs)) in Z.
    destruct (N.eq_dec (size_of E t') 0) as [Z1|Z1]; [auto|]. destruct vs; [cbn in B; congruence|cbn [length] in Z; lia].
  - apply (Hst l fs vs a A1 Hw). lia.
  - rewrite A1, A2. apply (Hen l d vss kk fs vs a A3 A2 Hw). lia.
  - destruct (resolve_named E HE id d A1) as [R1 R2]. cbn [resolve] in R1. rewrite R1.
    assert (Hsz : size_of E (TNamed id) = size_of E d) by (unfold size_of; rewrite (named_size E HE id d A1); reflexivity).
    rewrite Hsz. destruct (HE id d A1) as [Hwd Hsd].
    destruct d as [| | | | |l fs|l d vss|]; try contradiction.
    + inversion A2; subst; cbn [vdepth] in Hd. apply (Hst l fs vs a ltac:(assumption) Hwd). lia.
    + inversion A2 as [| | | | | |l0 d0 vss0 a1 kk fs vs Q1 Q2 Q3|]; subst; cbn [vdepth] in Hd. rewrite Q1, Q2. apply (Hen l d vss kk fs vs a Q3 Q2 Hwd). lia.
Qed.
End ReprPlaces.
