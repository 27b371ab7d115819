(** * Idem: serializing the output of the Complete serializer again. *)
From Verif Require Import Base Types Storage Serializer Serialize Spec ArithFacts StorageFacts StorageHist MemFacts TypeFacts
  SerFacts SerMain SerValue SerRoot SerProps Encode EncodeFacts.
From Coq Require Import ZifyBool ZifyNat ZifyN.
Local Open Scope N_scope.

Section Idem.
Context {P : Params}.

(** Capacity = length (what Complete leaves, whatever the input). *)
Definition shrunk : header := fun q l c p n => 0 < l_size l -> c = n.

Lemma transfers_shrunk : transfers Complete any_header shrunk.
Proof.
  unfold transfers, any_header, shrunk. ands.
  - intros q q' l c p n _ [H|[-> H]] Hs; [lia|]. auto.
  - auto.
  - auto.
Qed.

Definition is_ptr (x : N * patch) : bool := match snd x with PPtr _ => true | PWord _ => false end.
Definition here (B : N) (x : N * N * N) : N * N * N := let '(p, _, n) := x in (p, B + p, n).
(** The same blocks read from the output at [B], where only pointers need a change. *)
Definition rebase (B : N) (e : enc) : enc :=
  mkEnc (map (here B) (e_copies e)) (filter is_ptr (e_patches e)) (e_end e).

Lemma rebase_then B e1 e2 c :
  rebase B (mkEnc (e_copies e1 ++ e_copies e2) (e_patches e1 ++ e_patches e2) c) =
  mkEnc (e_copies (rebase B e1) ++ e_copies (rebase B e2)) (e_patches (rebase B e1) ++ e_patches (rebase B e2)) c.
Proof. unfold rebase; cbn [e_copies e_patches e_end]. rewrite map_app, filter_app. reflexivity. Qed.

(** ** Where the patches are *)
Section Inside.
Variable k : kind.
Variable E : tenv.
Variable m : mem.
Hypothesis HE : wf_env E.

Definition in_copy (cs : list (N * N * N)) (q : N) : Prop :=
  exists st tp n, In (st, tp, n) cs /\ st <= q /\ q + pW <= st + n.
(** Patches lie inside the [size] bytes at [p] or a copy; pointers go to copies. *)
Definition inside (p size : N) (e : enc) : Prop :=
  forall q w, In (q, w) (e_patches e) ->
    ((p <= q /\ q + pW <= p + size) \/ in_copy (e_copies e) q) /\
    (forall t, w = PPtr t -> exists tp n, In (t, tp, n) (e_copies e) /\ 0 < n).

Lemma in_copy_app_l cs1 cs2 q : in_copy cs1 q -> in_copy (cs1 ++ cs2) q.
Proof. intros (st & tp & n & H1 & H2). exists st, tp, n. split; [apply in_or_app; auto|exact H2]. Qed.
Lemma in_copy_app_r cs1 cs2 q : in_copy cs2 q -> in_copy (cs1 ++ cs2) q.
Proof. intros (st & tp & n & H1 & H2). exists st, tp, n. split; [apply in_or_app; auto|exact H2]. Qed.

Lemma inside_nothing p size cur : inside p size (nothing cur).
Proof. intros q w []. Qed.

Lemma inside_then p size e1 e2 c : inside p size e1 -> inside p size e2 ->
  inside p size (mkEnc (e_copies e1 ++ e_copies e2) (e_patches e1 ++ e_patches e2) c).
Proof.
  intros H1 H2 q w Hin. cbn [e_patches e_copies] in *. apply in_app_or in Hin.
  destruct Hin as [Hin|Hin]; [destruct (H1 q w Hin) as [A B]|destruct (H2 q w Hin) as [A B]]; split.
  - destruct A; [left; assumption|right; apply in_copy_app_l; assumption].
  - intros t Ht. destruct (B t Ht) as (tp & n & D & F). exists tp, n. split; [apply in_or_app; auto|exact F].
  - destruct A; [left; assumption|right; apply in_copy_app_r; assumption].
  - intros t Ht. destruct (B t Ht) as (tp & n & D & F). exists tp, n. split; [apply in_or_app; auto|exact F].
Qed.

Lemma inside_weaken p size p' size' e : p' <= p -> p + size <= p' + size' -> inside p size e -> inside p' size' e.
Proof. intros Hp Hs H q w Hin. destruct (H q w Hin) as [[A|A] B]; split; auto; left; lia. Qed.

(** The values of a block are inside it. *)
Lemma inside_block ws q l tp n cur inner e p size :
  block_enc k ws q l tp n cur inner = Some e ->
  (forall q' w, In (q', w) ws -> (exists x, w = PWord x) /\ p <= q' /\ q' + pW <= p + size) ->
  p <= q -> q + pW <= p + size -> 0 < l_size l * n ->
  (forall e2, inner (push_start cur l) (push_end cur l n) = Some e2 -> inside (push_start cur l) (l_size l * n) e2) ->
  inside p size e.
Proof.
  unfold block_enc. intros He Hws H1 H2 Hpos Hin. apply then_inv in He. destruct He as (e1 & e2 & He1 & He2 & ->).
  inversion He1; subst e1; clear He1. cbn [e_end e_copies e_patches] in *. specialize (Hin e2 He2).
  intros q' w Hq. cbn [e_patches e_copies app] in *. apply in_app_or in Hq. destruct Hq as [Hq|Hq].
  - apply in_app_or in Hq. destruct Hq as [Hq|Hq].
    + destruct (Hws q' w Hq) as ((x & ->) & A). split; [left; exact A|intros t Ht; discriminate].
    + destruct (fixes_ptrs k); [|destruct Hq]. destruct Hq as [Hq|[]]. inversion Hq; subst.
      split; [left; lia|]. intros t Ht. inversion Ht; subst. exists tp, (l_size l * n). split; [left; reflexivity|exact Hpos].
  - destruct (Hin q' w Hq) as [[A|A] B]; split.
    + right. exists (push_start cur l), tp, (l_size l * n). split; [left; reflexivity|exact A].
    + intros t Ht. destruct (B t Ht) as (tp' & n' & D & F). exists tp', n'. split; [right; exact D|exact F].
    + right. destruct A as (st & tp' & n' & D & F). exists st, tp', n'. split; [right; exact D|exact F].
    + intros t Ht. destruct (B t Ht) as (tp' & n' & D & F). exists tp', n'. split; [right; exact D|exact F].
Qed.

Lemma inside_vec vl l c tp n p cur inner e :
  enc_vec k vl l c tp n p cur inner = Some e ->
  (forall e2, inner (push_start cur l) (push_end cur l n) = Some e2 -> inside (push_start cur l) (l_size l * n) e2) ->
  inside p (3 * pW) e.
Proof.
  unfold enc_vec. intros He Hin.
  assert (Ho : cap_off vl + pW <= 3 * pW /\ ptr_off vl + pW <= 3 * pW).
  { unfold cap_off, ptr_off. destruct vl; cbn [cap_ix ptr_ix]; lia. }
  destruct (N.eqb_spec (l_size l) 0) as [Hl|Hl]; [inversion He; apply inside_nothing|].
  destruct (N.eqb_spec n 0) as [Hn|Hn].
  - inversion He; subst. intros q w Hq. cbn [e_patches] in Hq.
    destruct (fixes_caps k && negb (c =? 0)); [|destruct Hq].
    destruct Hq as [Hq|[Hq|[]]]; inversion Hq; subst; (split; [left; lia|intros t Ht; discriminate]).
  - eapply inside_block; [exact He| |lia|lia|nia|exact Hin].
    intros q' w Hq. destruct (fixes_caps k && negb (c =? n)); [|destruct Hq].
    destruct Hq as [Hq|[]]; inversion Hq; subst. split; [eauto|lia].
Qed.

Lemma encode_inside t a v : repr E any_header m t a v -> wf_ty E t ->
  forall f p cur e, encode k E m f t a p cur = Some e -> inside p (size_of E t) e.
Proof.
  intros HR. revert t a v HR.
  apply (repr_mind P E any_header m
    (fun t a v _ => wf_ty E t -> forall f p cur e, encode k E m f t a p cur = Some e -> inside p (size_of E t) e)
    (fun t a vs _ => wf_ty E t -> forall f p cur e,
       enc_elems (encode k E m f t) (size_of E t) (length vs) a p cur = Some e ->
       inside p (size_of E t * N.of_nat (length vs)) e)
    (fun fs a vs _ => forall l, fields_ok E l fs -> (forall o t, In (o, t) fs -> wf_ty E t) -> forall f p cur e,
       enc_fields (encode k E m f) fs a p cur = Some e -> inside p (l_size l) e)).
  - intros l ok a n Hr Hok _ [|f] p cur e He; [discriminate|]. cbn in He. inversion He. apply inside_nothing.
  - intros t a tp v Hp Hv Hh Hrep IH Hw [|f] p cur e He; [discriminate|]. cbn [encode resolve] in He.
    inversion Hw; subst.
    destruct (N.eqb_spec (size_of E t) 0); [inversion He; apply inside_nothing|].
    rewrite Hp in He. change (size_of E (TBox t)) with pW.
    eapply inside_block; [exact He|intros q' w []|lia|lia|unfold size_of in *; lia|].
    intros e2 He2. rewrite N.mul_1_r. eapply IH; eauto.
  - intros vl t a c tp vs Hc Hp Hn Hvec Hh Hel IH Hw [|f] p cur e He; [discriminate|]. cbn [encode resolve] in He.
    inversion Hw; subst. rewrite Hc, Hp, Hn in He. change (size_of E (TVec vl t)) with (3 * pW).
    eapply inside_vec; [exact He|]. intros e2 He2. rewrite Nat2N.id in He2. eapply IH; eauto.
  - intros vl a c tp bs Hc Hp Hn Hvec Hh Hel Hw [|f] p cur e He; [discriminate|]. cbn [encode resolve] in He.
    rewrite Hc, Hp, Hn in He. change (size_of E (TString vl)) with (3 * pW).
    eapply inside_vec; [exact He|]. intros e2 He2. inversion He2. apply inside_nothing.
  - intros t n a vs -> Hel IH Hw [|f] p cur e He; [discriminate|]. cbn [encode resolve] in He.
    inversion Hw; subst. rewrite Nat2N.id in He.
    change (size_of E (TArray t (N.of_nat (length vs)))) with (size_of E t * N.of_nat (length vs)). eapply IH; eauto.
  - intros l fs a vs Hfs IH Hw [|f] p cur e He; [discriminate|]. cbn [encode resolve] in He.
    inversion Hw; subst. change (size_of E (TStruct l fs)) with (l_size l). eapply IH; eauto.
  - intros l d vss a kk fs vs Hd Hk Hfs IH Hw [|f] p cur e He; [discriminate|]. cbn [encode resolve] in He.
    inversion Hw; subst. rewrite Hd, Hk in He. change (size_of E (TEnum l d vss)) with (l_size l).
    eapply IH; eauto.
  - intros id d a v Hid Hv IH Hw [|f] p cur e He; [discriminate|].
    destruct (resolve_named E HE id d Hid) as [Q1 Q2].
    assert (Hsz : size_of E (TNamed id) = size_of E d) by (unfold size_of; rewrite (named_size E HE id d Hid); reflexivity).
    rewrite Hsz. apply (IH (proj1 (HE id d Hid)) (S f) p cur e).
    cbn [encode] in *. rewrite Q2. rewrite Q1 in He. exact He.
  - intros t a Hw f p cur e He. cbn in He. inversion He. apply inside_nothing.
  - intros t a v vs Hv IH1 Hvs IH2 Hw f p cur e He. cbn [length enc_elems] in He.
    apply then_inv in He. destruct He as (e1 & e2 & He1 & He2 & ->).
    cbn [length]. rewrite Nat2N.inj_succ, N.mul_succ_r.
    apply inside_then.
    + eapply inside_weaken; [| |eapply IH1; eauto]; lia.
    + eapply inside_weaken; [| |eapply IH2; eauto]; lia.
  - intros a l _ _ f p cur e He. cbn in He. inversion He. apply inside_nothing.
  - intros off t fs a v vs Hv IH1 Hvs IH2 l Hfo Hall f p cur e He. cbn [enc_fields] in He.
    apply then_inv in He. destruct He as (e1 & e2 & He1 & He2 & ->).
    inversion Hfo as [|? ? ? Hb Ho Hao Hdis Hfo']; subst.
    apply inside_then.
    + eapply inside_weaken; [| |eapply IH1; [apply (Hall off t); left; reflexivity|eauto]]; lia.
    + eapply (IH2 l Hfo'); eauto. intros o u Hi. apply (Hall o u). right; exact Hi.
Qed.

Lemma encode_all_inside f : forall (xs : list item) cur e,
  Forall (fun '(t, a, v) => repr E any_header m t a v /\ wf_ty E t) xs ->
  encode_all k E m f (map it_in xs) cur = Some e -> inside 0 0 e.
Proof.
  induction xs as [|[[t a] v] xs IH]; intros cur e Hall He.
  - cbn in He. inversion He. apply inside_nothing.
  - inversion Hall as [|? ? Hx0 Hxs]; subst. cbn beta iota in Hx0. destruct Hx0 as [Hr Hw].
    cbn [map it_in fst encode_all] in He. apply then_inv in He. destruct He as (e1 & e2 & He1 & He2 & ->).
    apply inside_then; [|eapply IH; eauto].
    unfold encode_root in He1. destruct (N.eqb_spec (size_of E t) 0) as [Hs|Hs]; [inversion He1; apply inside_nothing|].
    apply then_inv in He1. destruct He1 as (d1 & d2 & Hd1 & Hd2 & ->). inversion Hd1; subst d1.
    cbn [e_end] in Hd2. pose proof (encode_inside t a v Hr Hw f _ _ _ Hd2) as HI.
    intros q w Hq. cbn [e_patches e_copies app] in *. destruct (HI q w Hq) as [[A|A] B]; split.
    + right. exists (push_start cur (layout_of E t)), a, (l_size (layout_of E t)). split; [left; reflexivity|exact A].
    + intros t' Ht. destruct (B t' Ht) as (tp' & n' & D & F). exists tp', n'. split; [right; exact D|exact F].
    + right. destruct A as (st & tp' & n' & D & F). exists st, tp', n'. split; [right; exact D|exact F].
    + intros t' Ht. destruct (B t' Ht) as (tp' & n' & D & F). exists tp', n'. split; [right; exact D|exact F].
Qed.

End Inside.

Section Env.
Variable E : tenv.
Variable m M : mem.
Variable B : N.
Hypothesis HE : wf_env E.

(** Pointers of the output. *)
Definition linked (e : enc) : Prop :=
  forall q st, In (q, PPtr st) (e_patches e) -> read_word M (B + q) = Some (B + st).

Lemma linked_app e1 e2 c : linked (mkEnc (e_copies e1 ++ e_copies e2) (e_patches e1 ++ e_patches e2) c) ->
  linked e1 /\ linked e2.
Proof. intros H; split; intros q st Hin; apply H; cbn; apply in_or_app; auto. Qed.

Notation enc1 := (encode Complete E m).
Notation enc2 := (encode Complete E M).

Lemma vec_rebase vl l c tp c' tp' n p cur (inner inner' : N -> N -> option enc) e :
  enc_vec Complete vl l c tp n p cur inner = Some e -> linked e ->
  read_word M (B + p + ptr_off vl) = Some tp' ->
  (0 < l_size l -> c' = n) ->
  (forall e2, tp' = B + push_start cur l ->
     inner (push_start cur l) (push_end cur l n) = Some e2 -> linked e2 ->
     inner' (push_start cur l) (push_end cur l n) = Some (rebase B e2)) ->
  enc_vec Complete vl l c' tp' n p cur inner' = Some (rebase B e).
Proof.
  unfold enc_vec, block_enc. cbn [fixes_caps fixes_ptrs andb]. intros He HL Hp Hc Hin.
  destruct (N.eqb_spec (l_size l) 0) as [Hl|Hl]; [inversion He; subst; reflexivity|].
  rewrite Hc by lia. rewrite N.eqb_refl. cbn [negb].
  destruct (N.eqb_spec n 0) as [Hn|Hn].
  - cbn [negb]. inversion He; subst. unfold rebase. cbn [e_copies e_patches e_end map].
    destruct (c =? 0); reflexivity.
  - apply then_inv in He. destruct He as (e1 & e2 & He1 & He2 & ->). inversion He1; subst e1; clear He1.
    cbn [e_end] in He2. pose proof HL as HL'. apply linked_app in HL. destruct HL as [L1 L2].
    assert (Ht : tp' = B + push_start cur l).
    { specialize (L1 (p + ptr_off vl) (push_start cur l)). cbn [e_patches] in L1.
      rewrite N.add_assoc in L1. rewrite L1 in Hp; [congruence|].
      apply in_or_app. right. left. reflexivity. }
    rewrite rebase_then. eapply then_some with (e2 := rebase B e2).
    + unfold rebase; cbn [e_copies e_patches e_end map here]. rewrite filter_app. rewrite Ht.
      destruct (negb (c =? n)); reflexivity.
    + cbn [e_end rebase]. apply Hin; auto.
Qed.

Lemma encode_rebase t a v : repr E any_header m t a v ->
  forall f p cur e, enc1 f t a p cur = Some e -> repr E shrunk M t (B + p) v -> linked e ->
  enc2 f t (B + p) p cur = Some (rebase B e).
Proof.
  intros HR. revert t a v HR.
  apply (repr_mind P E any_header m
    (fun t a v _ => forall f p cur e, enc1 f t a p cur = Some e -> repr E shrunk M t (B + p) v -> linked e ->
       enc2 f t (B + p) p cur = Some (rebase B e))
    (fun t a vs _ => forall f p cur e,
       enc_elems (enc1 f t) (size_of E t) (length vs) a p cur = Some e ->
       repr_elems E shrunk M t (B + p) vs -> linked e ->
       enc_elems (enc2 f t) (size_of E t) (length vs) (B + p) p cur = Some (rebase B e))
    (fun fs a vs _ => forall f p cur e,
       enc_fields (enc1 f) fs a p cur = Some e ->
       repr_fields E shrunk M fs (B + p) vs -> linked e ->
       enc_fields (enc2 f) fs (B + p) p cur = Some (rebase B e))).
  - intros l ok a n Hr Hok [|f] p cur e He HM HL; [discriminate|]. cbn in *. inversion He; reflexivity.
  - intros t a tp v Hp Hv Hh Hrep IH [|f] p cur e He HM HL; [discriminate|]. cbn [encode resolve] in *.
    destruct (N.eqb_spec (size_of E t) 0); [inversion He; reflexivity|].
    rewrite Hp in He. inversion HM as [|? ? tp' ? Hp' Hv' Hh' Hrep'| | | | | |]; subst.
    rewrite Hp'. unfold block_enc in *.
    apply then_inv in He. destruct He as (e1 & e2 & He1 & He2 & ->). inversion He1; subst e1; clear He1.
    cbn [e_end] in He2. apply linked_app in HL. destruct HL as [L1 L2].
    assert (Ht : tp' = B + push_start cur (layout_of E t)).
    { specialize (L1 p (push_start cur (layout_of E t)) (or_introl eq_refl)). congruence. }
    rewrite rebase_then. eapply then_some with (e2 := rebase B e2).
    + unfold rebase; cbn [e_copies e_patches e_end map here fixes_ptrs app filter is_ptr snd]. rewrite Ht. reflexivity.
    + cbn [e_end]. subst tp'. apply IH; auto.
  - intros vl t a c tp vs Hc Hp Hn Hvec Hh Hel IH [|f] p cur e He HM HL; [discriminate|]. cbn [encode resolve] in *.
    rewrite Hc, Hp, Hn in He. inversion HM as [| |? ? ? c' tp' ? Hc' Hp' Hn' Hvec' Hh' Hel'| | | | |]; subst.
    rewrite Hc', Hp', Hn'. eapply vec_rebase; [exact He|exact HL|exact Hp'|exact Hh'|].
    intros e2 Ht He2 L2. rewrite Nat2N.id in *. subst tp'. apply IH; auto.
  - intros vl a c tp bs Hc Hp Hn Hvec Hh Hel [|f] p cur e He HM HL; [discriminate|]. cbn [encode resolve] in *.
    rewrite Hc, Hp, Hn in He. inversion HM as [| | |? ? c' tp' ? Hc' Hp' Hn' Hvec' Hh' Hel'| | | |]; subst.
    rewrite Hc', Hp', Hn'. eapply vec_rebase; [exact He|exact HL|exact Hp'|exact Hh'|].
    intros e2 Ht He2 L2. inversion He2; subst. reflexivity.
  - intros t n a vs -> Hel IH [|f] p cur e He HM HL; [discriminate|]. cbn [encode resolve] in *.
    rewrite Nat2N.id in *. inversion HM; subst. apply IH; auto.
  - intros l fs a vs Hfs IH [|f] p cur e He HM HL; [discriminate|]. cbn [encode resolve] in *.
    inversion HM; subst. apply IH; auto.
  - intros l d vss a kk fs vs Hd Hk Hfs IH [|f] p cur e He HM HL; [discriminate|]. cbn [encode resolve] in *.
    rewrite Hd, Hk in He. inversion HM as [| | | | | |? ? ? ? ? fs' ? Hd' Hk' Hfs'|]; subst.
    rewrite Hd', Hk'. rewrite Hk in Hk'. inversion Hk'; subst fs'. apply IH; auto.
  - intros id d a v Hid Hv IH [|f] p cur e He HM HL; [discriminate|].
    destruct (resolve_named E HE id d Hid) as [Q1 Q2].
    assert (HMd : repr E shrunk M d (B + p) v).
    { inversion HM as [| | | | | | |? d' ? ? Hid' Hv']; subst. rewrite Hid in Hid'. inversion Hid'; subst d'. exact Hv'. }
    assert (He' : enc1 (S f) d a p cur = Some e) by (cbn [encode] in *; rewrite Q2; rewrite Q1 in He; exact He).
    pose proof (IH (S f) p cur e He' HMd HL) as R. cbn [encode] in *. rewrite Q1. rewrite Q2 in R. exact R.
  - intros t a f p cur e He HM HL. cbn in *. inversion He; reflexivity.
  - intros t a v vs Hv IH1 Hvs IH2 f p cur e He HM HL. cbn [length enc_elems] in *.
    apply then_inv in He. destruct He as (e1 & e2 & He1 & He2 & ->).
    inversion HM as [|? ? ? ? HM1 HM2]; subst. apply linked_app in HL. destruct HL as [L1 L2].
    rewrite rebase_then. eapply then_some with (e1 := rebase B e1) (e2 := rebase B e2); [apply IH1; auto|].
    cbn [rebase e_end]. rewrite <- N.add_assoc. apply IH2; auto. rewrite N.add_assoc. exact HM2.
  - intros a f p cur e He HM HL. cbn in *. inversion He; reflexivity.
  - intros off t fs a v vs Hv IH1 Hvs IH2 f p cur e He HM HL. cbn [enc_fields] in *.
    apply then_inv in He. destruct He as (e1 & e2 & He1 & He2 & ->).
    inversion HM as [|? ? ? ? ? ? HM1 HM2]; subst. apply linked_app in HL. destruct HL as [L1 L2].
    rewrite rebase_then. eapply then_some with (e1 := rebase B e1) (e2 := rebase B e2).
    + rewrite <- N.add_assoc. apply IH1; auto. rewrite N.add_assoc. exact HM1.
    + cbn [rebase e_end]. apply IH2; auto.
Qed.

(** The values found in the output. *)
Fixpoint reread (xs : list item) (rs : list N) : list item :=
  match xs, rs with
  | (t, _, v) :: xs', r :: rs' => (t, B + r, v) :: reread xs' rs'
  | _, _ => []
  end.

Hypothesis C : cfg_ok.

Lemma encode_all_rebase f : forall (xs : list item) cur e,
  Forall (fun '(t, a, v) => (repr E any_header m t a v /\ wf_ty E t) /\ (vdepth v < f)%nat) xs ->
  encode_all Complete E m f (map it_in xs) cur = Some e ->
  Forall2 (fun '(t, a, v) r => repr E shrunk M t (B + r) v) xs (root_positions E cur (map it_tv xs)) ->
  linked e ->
  encode_all Complete E M f (map it_in (reread xs (root_positions E cur (map it_tv xs)))) cur = Some (rebase B e).
Proof.
  induction xs as [|[[t a] v] xs IH]; intros cur e Hall He HM HL.
  - cbn in *. inversion He; reflexivity.
  - inversion Hall as [|? ? Hx0 Hxs]; subst. cbn beta iota in Hx0. destruct Hx0 as [[Hr Hw] Hv].
    cbn [map it_in it_tv fst snd root_positions reread encode_all] in *.
    apply then_inv in He. destruct He as (e1 & e2 & He1 & He2 & ->).
    inversion HM as [|? ? ? ? HM1 HM2]; subst. apply linked_app in HL. destruct HL as [L1 L2].
    pose proof (root_covers C E HE Complete m any_header f t a v cur e1 Hr Hw Hv He1) as [K1 _].
    rewrite rebase_then. eapply then_some with (e1 := rebase B e1) (e2 := rebase B e2).
    + unfold encode_root in *. unfold root_pos in *.
      destruct (N.eqb_spec (size_of E t) 0) as [Hs|Hs]; [inversion He1; subst; reflexivity|].
      apply then_inv in He1. destruct He1 as (d1 & d2 & Hd1 & Hd2 & ->). inversion Hd1; subst d1.
      cbn [e_end] in Hd2. apply linked_app in L1. destruct L1 as [_ L1].
      rewrite rebase_then. eapply then_some with (e2 := rebase B d2); [reflexivity|].
      cbn [e_end]. apply (encode_rebase t a v Hr f _ _ d2); auto.
    + cbn [rebase e_end]. rewrite K1. apply IH; auto. rewrite <- K1. exact He2.
Qed.

End Env.
End Idem.
