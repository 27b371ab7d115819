(** * PropLoad: outputs loaded at another address (C78).

    The pointers of a Complete output hold addresses of the buffer it was written in; those of a
    PtrOffset output hold positions.  Either can be loaded at any (aligned) address: a reader that
    follows the pointers of the values, and adds the difference of the addresses to each pointer
    word it meets, has the values in place.  Which words these are depends on types and bytes
    only; there is one for each allocation, and they do not overlap. *)
From Coq Require Import Permutation.
From Verif Require Import Base Types Storage Serializer Serialize Spec ArithFacts StorageFacts StorageHist Frame MemFacts TypeFacts
  SerFacts SerMain SerValue SerRoot SerProps Encode EncodeFacts Idem PropClient PropEncode PropGaps PropIdem PropTree Record PropRecord Load.
From Coq Require Import ZifyBool ZifyNat ZifyN.
Local Open Scope N_scope.

(** ** Specification *)

(** The pointer words of the values, in the order they are met. *)
Definition root_handles {P : Params} (E : tenv) (M : mem) (f : nat) (t : ty) (a : N) : option (list N) :=
  if size_of E t =? 0 then Some [] else handles E M f t a.
Fixpoint all_handles {P : Params} (E : tenv) (M : mem) (f : nat) (ts : list (ty * N)) : option (list N) :=
  match ts with
  | [] => Some []
  | (t, a) :: ts' => cat2 (root_handles E M f t a) (all_handles E M f ts')
  end.

(** Loading: the [len] bytes at [B] are copied to [B'], then in each of the words [hs] the pointer
    is replaced. *)
Definition copied (M : mem) (B B' len : N) : mem :=
  fun j => if (B' <=? j) && (j <? B' + len) then M (B + (j - B')) else None.
Definition load {P : Params} (M : mem) (B B' len : N) (hs : list N) : mem :=
  fold_left (fun M' p =>
      match read_word M p with
      | Some x => blit M' (B' + (p - B)) pW (word_src (B' + (x - B)))
      | None => M'
      end) hs (copied M B B' len).

Section Facts.
Context {P : Params}.

Lemma found_cons B t a v (xs : list item) r rs :
  inputs (found_at B ((t, a, v) :: xs) (r :: rs)) = (t, B + r) :: inputs (found_at B xs rs).
Proof. reflexivity. Qed.

Lemma roots_handles (C : cfg_ok) E (HE : wf_env E) k (Hk : fixes_ptrs k = true) m M M2 B
    (Hsub : forall i b, M i = Some b -> M2 i = Some b) H f : forall (xs : list item) c e rs,
  rs = root_positions E c (map it_tv xs) ->
  Forall (fun '(t, a, v) => (repr E H m t a v /\ wf_ty E t) /\ (vdepth v < f)%nat) xs ->
  encode_all k E m f (map it_in xs) c = Some e -> patched M2 B e -> B + e_end e <= umod ->
  Forall2 (fun '(t, a, v) r => repr E any_header M t (B + r) v) xs rs ->
  all_handles E M f (inputs (found_at B xs rs)) = Some (map (N.add B) (ptr_words e)).
Proof.
  induction xs as [|[[t a] v] xs IH]; intros c e rs -> Hall He Hp HB Hr.
  - cbn in *. inversion He; subst. reflexivity.
  - inversion Hall as [|? ? Hx0 Hys]; subst. cbn beta iota in Hx0. destruct Hx0 as [[Hrep Hw] Hv].
    cbn [map it_in it_tv fst snd encode_all root_positions] in *. rewrite found_cons. cbn [all_handles].
    apply then_inv in He. destruct He as (e1 & e2 & He1 & He2 & ->).
    apply patched_then in Hp. destruct Hp as [Hp1 Hp2]. cbn [e_end] in HB.
    inversion Hr as [|? ? ? ? Hr1 Hr2]; subst. cbn beta iota in Hr1.
    destruct (root_covers C E HE k m H f t a v c e1 Hrep Hw Hv He1) as [K1 K2].
    destruct (all_covers C E HE k m H f xs (e_end e1) e2 Hys He2) as [L1 L2].
    pose proof (end_pos_ge C (e_end e1) (all_allocations E (map it_tv xs))).
    rewrite ptr_words_then, map_app.
    eapply cat2_some; [| |reflexivity].
    + unfold root_handles, root_pos in *. unfold encode_root in He1.
      destruct (N.eqb_spec (size_of E t) 0) as [Hs|Hs].
      * inversion He1; subst. reflexivity.
      * apply then_inv in He1. destruct He1 as (d1 & d2 & Hd1 & Hd2 & ->). inversion Hd1; subst d1; clear Hd1.
        rewrite ptr_words_then. cbn [e_end e_patches e_copies app] in *.
        eapply (owned_handles C E HE k Hk m M M2 B Hsub); [exact Hrep|exact Hv|exact Hd2| |lia|exact Hr1].
        intros q' w' Hin'; apply (Hp1 q' w'); cbn [e_patches]; exact Hin'.
    + rewrite <- K1 in *. apply (IH (e_end e1) e2 _ eq_refl Hys He2 Hp2); [lia|exact Hr2].
Qed.

(** All the roots. *)
Lemma roots_go (C : cfg_ok) E (HE : wf_env E) M M' B B' (HB : (MVA | B)) (HB' : (MVA | B')) (HB0 : 0 < B') f :
  forall (xs : list item) rs pss hs,
  Forall (fun '(t, a, v) => wf_ty E t /\ (vdepth v < f)%nat) xs ->
  Forall2 (fun '(t, a, v) r => repr E any_header M t (B + r) v) xs rs ->
  Forall2 (fun '(t, r) ps => root_places E M f t (B + r) = Some ps) (combine (map fst (inputs xs)) rs) pss ->
  all_handles E M f (inputs (found_at B xs rs)) = Some hs ->
  goes M M' B B' hs (concat pss) (Forall2 (fun '(t, a, v) r => repr E any_header M' t (B' + r) v) xs rs).
Proof.
  induction xs as [|[[t a] v] xs IH]; intros rs pss hs Hall Hr Hps Hhs.
  - inversion Hr; subst. cbn in *. inversion Hps; subst. inversion Hhs; subst. apply goes_nil. intros; constructor.
  - inversion Hr as [|? r ? rs' Hr1 Hr2]; subst. cbn beta iota in Hr1. inversion Hall as [|? ? Hx0 Hys]; subst. destruct Hx0 as [Hw Hv].
    cbn [inputs map fst combine] in Hps. inversion Hps as [|? ps ? pss' Hps1 Hps2]; subst. cbn beta iota in Hps1.
    rewrite found_cons in Hhs. cbn [all_handles] in Hhs. apply cat2_inv in Hhs. destruct Hhs as (h1 & h2 & Hh1 & Hh2 & ->).
    cbn [concat]. eapply goes_two; [apply Permutation_refl| |exact (IH rs' pss' h2 Hys Hr2 Hps2 Hh2)|].
    2: { intros A1 A2. constructor; [exact A1|exact A2]. }
    unfold root_places in Hps1. unfold root_handles in Hh1. destruct (N.eqb_spec (size_of E t) 0) as [Hz|Hz].
    + inversion Hps1; inversion Hh1; subst. apply goes_nil. intros _ _. eapply (zst_repr C E HE); eassumption.
    + apply cat2_inv in Hps1. destruct Hps1 as (x & y & Hx & Hy & ->). inversion Hx; subst x.
      pose proof (moved_repr C E HE M M' B B' HB HB' HB0 any_header t (B + r) v Hr1 Hw f y h1 Hv Hy Hh1) as G.
      replace (mv B B' (B + r)) with (B' + r) in G by (unfold mv; lia). exact G.
Qed.

(** Each word leads to one of the places. *)
Lemma handles_lead E M f : forall t a hs ps, handles E M f t a = Some hs -> places E M f t a = Some ps ->
  forall p, In p hs -> exists x n, read_word M p = Some x /\ In (x, n) ps /\ 0 < n.
Proof.
  induction f as [|f IH]; intros t a hs ps Hh Hp; [discriminate|]. cbn [handles places] in *.
  assert (Hel : forall t n a hs ps, handles_elems (handles E M f t) (size_of E t) n a = Some hs ->
    places_elems (places E M f t) (size_of E t) n a = Some ps ->
    forall p, In p hs -> exists x n, read_word M p = Some x /\ In (x, n) ps /\ 0 < n).
  { clear - IH. intros t n. induction n as [|n IHn]; intros a hs ps Hh Hp p Hin; cbn [handles_elems places_elems] in *.
    - inversion Hh; subst. contradiction.
    - apply cat2_inv in Hh. destruct Hh as (h1 & h2 & Hh1 & Hh2 & ->). apply cat2_inv in Hp. destruct Hp as (p1 & p2 & Hp1 & Hp2 & ->).
      apply in_app_or in Hin. destruct Hin as [Hin|Hin]; [destruct (IH _ _ _ _ Hh1 Hp1 p Hin) as (x & k & A1 & A2 & A3)|destruct (IHn _ _ _ Hh2 Hp2 p Hin) as (x & k & A1 & A2 & A3)];
        exists x, k; (ands; auto; apply in_or_app; auto). }
  assert (Hfl : forall fs a hs ps, handles_fields (handles E M f) fs a = Some hs ->
    places_fields (places E M f) fs a = Some ps ->
    forall p, In p hs -> exists x n, read_word M p = Some x /\ In (x, n) ps /\ 0 < n).
  { clear - IH. intros fs. induction fs as [|[off t] fs IHn]; intros a hs ps Hh Hp p Hin; cbn [handles_fields places_fields] in *.
    - inversion Hh; subst. contradiction.
    - apply cat2_inv in Hh. destruct Hh as (h1 & h2 & Hh1 & Hh2 & ->). apply cat2_inv in Hp. destruct Hp as (p1 & p2 & Hp1 & Hp2 & ->).
      apply in_app_or in Hin. destruct Hin as [Hin|Hin]; [destruct (IH _ _ _ _ Hh1 Hp1 p Hin) as (x & k & A1 & A2 & A3)|destruct (IHn _ _ _ Hh2 Hp2 p Hin) as (x & k & A1 & A2 & A3)];
        exists x, k; (ands; auto; apply in_or_app; auto). }
  destruct (resolve E t) as [l ok|t'|vl t'|vl|t' n|l fs|l d vss|id]; try discriminate.
  - inversion Hh; subst. intros p [].
  - destruct (N.eqb_spec (size_of E t') 0) as [Hz|Hz]; [inversion Hh; subst; intros p []|].
    destruct (read_word M a) as [x|] eqn:Ex; [|discriminate].
    apply cat2_inv in Hh. destruct Hh as (h1 & h2 & Hh1 & Hh2 & ->). apply cat2_inv in Hp. destruct Hp as (p1 & p2 & Hp1 & Hp2 & ->).
    inversion Hh1; inversion Hp1; subst. intros p [<-|Hin].
    + exists x, (size_of E t'). ands; [exact Ex|left; reflexivity|lia].
    + destruct (IH _ _ _ _ Hh2 Hp2 p Hin) as (y & k & A1 & A2 & A3). exists y, k. ands; auto. right; exact A2.
  - destruct (read_word M (a + ptr_off vl)) as [x|] eqn:Ex; [|discriminate].
    destruct (read_word M (a + len_off vl)) as [n|]; [|discriminate].
    destruct ((size_of E t' =? 0) || (n =? 0)) eqn:Ez; [inversion Hh; subst; intros p []|].
    apply cat2_inv in Hh. destruct Hh as (h1 & h2 & Hh1 & Hh2 & ->). apply cat2_inv in Hp. destruct Hp as (p1 & p2 & Hp1 & Hp2 & ->).
    inversion Hh1; inversion Hp1; subst. intros p [<-|Hin].
    + exists x, (size_of E t' * n). ands; [exact Ex|left; reflexivity|]. apply N.mul_pos_pos; lia.
    + destruct (Hel _ _ _ _ _ Hh2 Hp2 p Hin) as (y & k & A1 & A2 & A3). exists y, k. ands; auto. right; exact A2.
  - destruct (read_word M (a + ptr_off vl)) as [x|] eqn:Ex; [|discriminate].
    destruct (read_word M (a + len_off vl)) as [n|]; [|discriminate].
    destruct (N.eqb_spec n 0); [inversion Hh; subst; intros p []|]. inversion Hh; inversion Hp; subst.
    intros p [<-|[]]. exists x, n. ands; [exact Ex|left; reflexivity|lia].
  - eapply Hel; eassumption.
  - eapply Hfl; eassumption.
  - destruct (read_discr M a d) as [v|]; [|discriminate]. destruct (nth_error vss v) as [fs|]; [|discriminate]. eapply Hfl; eassumption.
Qed.

(** One word for each place. *)
Lemma handles_length E M f : forall t a hs ps, handles E M f t a = Some hs -> places E M f t a = Some ps -> length hs = length ps.
Proof.
  induction f as [|f IH]; intros t a hs ps Hh Hp; [discriminate|]. cbn [handles places] in *.
  assert (Hel : forall t n a hs ps, handles_elems (handles E M f t) (size_of E t) n a = Some hs ->
    places_elems (places E M f t) (size_of E t) n a = Some ps -> length hs = length ps).
  { clear - IH. intros t n. induction n as [|n IHn]; intros a hs ps Hh Hp; cbn [handles_elems places_elems] in *.
    - inversion Hh; inversion Hp; reflexivity.
    - apply cat2_inv in Hh. destruct Hh as (h1 & h2 & Hh1 & Hh2 & ->). apply cat2_inv in Hp. destruct Hp as (p1 & p2 & Hp1 & Hp2 & ->).
      rewrite !app_length, (IH _ _ _ _ Hh1 Hp1), (IHn _ _ _ Hh2 Hp2). reflexivity. }
  assert (Hfl : forall fs a hs ps, handles_fields (handles E M f) fs a = Some hs ->
    places_fields (places E M f) fs a = Some ps -> length hs = length ps).
  { clear - IH. intros fs. induction fs as [|[off t] fs IHn]; intros a hs ps Hh Hp; cbn [handles_fields places_fields] in *.
    - inversion Hh; inversion Hp; reflexivity.
    - apply cat2_inv in Hh. destruct Hh as (h1 & h2 & Hh1 & Hh2 & ->). apply cat2_inv in Hp. destruct Hp as (p1 & p2 & Hp1 & Hp2 & ->).
      rewrite !app_length, (IH _ _ _ _ Hh1 Hp1), (IHn _ _ _ Hh2 Hp2). reflexivity. }
  destruct (resolve E t) as [l ok|t'|vl t'|vl|t' n|l fs|l d vss|id]; try discriminate.
  - inversion Hh; inversion Hp; reflexivity.
  - destruct (N.eqb_spec (size_of E t') 0) as [Hz|Hz]; [inversion Hh; inversion Hp; reflexivity|].
    destruct (read_word M a) as [x|] eqn:Ex; [|discriminate].
    apply cat2_inv in Hh. destruct Hh as (h1 & h2 & Hh1 & Hh2 & ->). apply cat2_inv in Hp. destruct Hp as (p1 & p2 & Hp1 & Hp2 & ->).
    inversion Hh1; inversion Hp1; subst. cbn [app length]. f_equal. eapply IH; eassumption.
  - destruct (read_word M (a + ptr_off vl)) as [x|] eqn:Ex; [|discriminate].
    destruct (read_word M (a + len_off vl)) as [n|]; [|discriminate].
    destruct ((size_of E t' =? 0) || (n =? 0)) eqn:Ez; [inversion Hh; inversion Hp; reflexivity|].
    apply cat2_inv in Hh. destruct Hh as (h1 & h2 & Hh1 & Hh2 & ->). apply cat2_inv in Hp. destruct Hp as (p1 & p2 & Hp1 & Hp2 & ->).
    inversion Hh1; inversion Hp1; subst. cbn [app length]. f_equal. eapply Hel; eassumption.
  - destruct (read_word M (a + ptr_off vl)) as [x|] eqn:Ex; [|discriminate].
    destruct (read_word M (a + len_off vl)) as [n|]; [|discriminate].
    destruct (N.eqb_spec n 0); inversion Hh; inversion Hp; reflexivity.
  - eapply Hel; eassumption.
  - eapply Hfl; eassumption.
  - destruct (read_discr M a d) as [v|]; [|discriminate]. destruct (nth_error vss v) as [fs|]; [|discriminate]. eapply Hfl; eassumption.
Qed.

Definition takes_space E (x : item) : bool := negb (size_of E (fst (fst x)) =? 0).
Lemma all_length E M B f : forall (xs : list item) rs pss hs,
  length xs = length rs ->
  Forall2 (fun '(t, r) ps => root_places E M f t (B + r) = Some ps) (combine (map fst (inputs xs)) rs) pss ->
  all_handles E M f (inputs (found_at B xs rs)) = Some hs ->
  length (concat pss) = (length hs + length (filter (takes_space E) xs))%nat.
Proof.
  induction xs as [|[[t a] v] xs IH]; intros [|r rs] pss hs Hl Hps Hhs; try discriminate Hl.
  - cbn in *. inversion Hhs; subst. inversion Hps; subst. reflexivity.
  - cbn [inputs map fst combine] in Hps. inversion Hps as [|? ps ? pss' Hps1 Hps2]; subst. cbn beta iota in Hps1.
    rewrite found_cons in Hhs. cbn [all_handles] in Hhs. apply cat2_inv in Hhs. destruct Hhs as (h1 & h2 & Hh1 & Hh2 & ->).
    cbn [concat filter]. unfold takes_space at 1. cbn [fst]. cbn in Hl. rewrite !app_length, (IH rs pss' h2 ltac:(lia) Hps2 Hh2).
    unfold root_places in Hps1. unfold root_handles in Hh1. destruct (N.eqb_spec (size_of E t) 0) as [Hz|Hz]; cbn [negb].
    + inversion Hh1; inversion Hps1; subst. cbn. lia.
    + apply cat2_inv in Hps1. destruct Hps1 as (x & y & Hx & Hy & ->). inversion Hx; subst x.
      rewrite (handles_length _ _ _ _ _ _ _ Hh1 Hy). cbn [app length]. lia.
Qed.
Lemma blocks_length ps : forall c, length (blocks c ps) = length ps.
Proof. induction ps as [|[l n] ps IH]; intros c; cbn; [reflexivity|]. rewrite IH. reflexivity. Qed.
Lemma allocations_length E : forall xs : list item,
  length (all_allocations E (values xs)) = (length (filter (takes_space E) xs) + pointers E xs)%nat.
Proof.
  induction xs as [|[[t a] v] xs IH]; [reflexivity|]. unfold all_allocations, values in *. cbn [map flat_map fst snd filter pointers].
  rewrite app_length, IH. unfold takes_space at 2, allocations. cbn [fst]. rewrite app_length.
  destruct (size_of E t =? 0); cbn [negb length]; lia.
Qed.

Lemma all_lead E M B f : forall (xs : list item) rs pss hs,
  length xs = length rs ->
  Forall2 (fun '(t, r) ps => root_places E M f t (B + r) = Some ps) (combine (map fst (inputs xs)) rs) pss ->
  all_handles E M f (inputs (found_at B xs rs)) = Some hs ->
  forall p, In p hs -> exists x n, read_word M p = Some x /\ In (x, n) (concat pss) /\ 0 < n.
Proof.
  induction xs as [|[[t a] v] xs IH]; intros [|r rs] pss hs Hl Hps Hhs p Hin; try discriminate Hl.
  - cbn in Hhs. inversion Hhs; subst. contradiction.
  - cbn [inputs map fst combine] in Hps. inversion Hps as [|? ps ? pss' Hps1 Hps2]; subst. cbn beta iota in Hps1.
    rewrite found_cons in Hhs. cbn [all_handles] in Hhs. apply cat2_inv in Hhs. destruct Hhs as (h1 & h2 & Hh1 & Hh2 & ->).
    cbn [concat]. apply in_app_or in Hin. destruct Hin as [Hin|Hin].
    + unfold root_places in Hps1. unfold root_handles in Hh1. destruct (N.eqb_spec (size_of E t) 0) as [Hz|Hz].
      * inversion Hh1; subst. contradiction.
      * apply cat2_inv in Hps1. destruct Hps1 as (x & y & Hx & Hy & ->). inversion Hx; subst x.
        destruct (handles_lead E M f _ _ _ _ Hh1 Hy p Hin) as (z & n & A1 & A2 & A3). exists z, n. ands; auto.
        apply in_or_app. left. right. exact A2.
    + cbn in Hl. destruct (IH rs pss' h2 ltac:(lia) Hps2 Hh2 p Hin) as (z & n & A1 & A2 & A3). exists z, n. ands; auto.
      apply in_or_app. right. exact A2.
Qed.

Lemma load_hit M B B' hs : (forall p, In p hs -> B <= p) -> separate (words pW hs) ->
  (forall p, In p hs -> exists x, read_word M p = Some x /\ B' + (x - B) < umod) ->
  forall M0 p x, In p hs -> read_word M p = Some x ->
  read_word (fold_left (fun M' p => match read_word M p with
      | Some x => blit M' (B' + (p - B)) pW (word_src (B' + (x - B))) | None => M' end) hs M0) (B' + (p - B)) = Some (B' + (x - B)).
Proof.
  intros HB Hs Hx.
  assert (Hkeep : forall l M0 p, (forall q, In q l -> B <= q /\ disjoint p pW q pW) -> B <= p ->
    read_word (fold_left (fun M' p => match read_word M p with
      | Some x => blit M' (B' + (p - B)) pW (word_src (B' + (x - B))) | None => M' end) l M0) (B' + (p - B)) = read_word M0 (B' + (p - B))).
  { induction l as [|q l IH]; intros M0 p Hd Hp; cbn [fold_left]; [reflexivity|].
    rewrite IH; [|intros q' Hq'; apply Hd; right; exact Hq'|exact Hp].
    destruct (read_word M q) as [y|]; [|reflexivity]. apply read_word_ext. intros i Hi. apply blit_out.
    destruct (Hd q (or_introl eq_refl)) as [D1 D2]. unfold disjoint in D2. lia. }
  induction hs as [|q hs IH]; intros M0 p x Hin Hpx; [contradiction|]. cbn [fold_left].
  inversion Hs as [|? ? S1 S2]; subst.
  destruct Hin as [->|Hin].
  - rewrite Hpx, Hkeep.
    + apply read_word_src.
      * destruct (Hx p (or_introl eq_refl)) as (x' & A1 & A2). rewrite Hpx in A1. inversion A1; subst. exact A2.
      * intros i Hi. rewrite blit_in by lia. f_equal. lia.
    + intros q Hq. split; [apply HB; right; exact Hq|]. rewrite Forall_forall in S1.
      apply (S1 (q, pW)). apply in_map_iff. exists q. auto.
    + apply HB. left; reflexivity.
  - apply IH; auto.
    + intros p' Hp'. apply HB. right; exact Hp'.
    + intros p' Hp'. apply Hx. right; exact Hp'.
Qed.

Lemma load_miss M B B' hs j : (forall p, In p hs -> j < B' + (p - B) \/ B' + (p - B) + pW <= j) ->
  forall M0, fold_left (fun M' p => match read_word M p with
      | Some x => blit M' (B' + (p - B)) pW (word_src (B' + (x - B))) | None => M' end) hs M0 j = M0 j.
Proof.
  induction hs as [|q hs IH]; intros Hj M0; cbn [fold_left]; [reflexivity|].
  rewrite IH by (intros p Hp; apply Hj; right; exact Hp).
  destruct (read_word M q); [|reflexivity]. apply blit_out. apply Hj. left; reflexivity.
Qed.

End Facts.

(** ** C78 *)

(** [f]: any bound on how deep the values nest. *)
Theorem C78_relocate {P : Params} : forall k E m xs w fuel f rs z,
  cfg_ok -> alloc_ok -> wf_env E -> storage_ok w ->
  k = PtrOffset \/ k = Complete ->
  valid_inputs E m xs fuel -> valid_inputs E m xs f ->
  serialize_all k E m fuel (inputs xs) (from_storage w) = Ok rs z ->
  let w' := z_sw z in
  let len := s_pos (sw_s w') in
  let B := read_base k w' in
  let M := out_mem B w' in
  exists hs,
    all_handles E M f (inputs (found_at B xs rs)) = Some hs /\
    length hs = pointers E xs /\
    separate (words pW hs) /\
    (forall p, In p hs -> B + s_pos (sw_s w) <= p /\ p + pW <= B + len /\
       exists x, read_word M p = Some x /\ B + s_pos (sw_s w) <= x /\ x < B + len) /\
    (forall B' M', 0 < B' -> (MVA | B') -> B' + len <= umod ->
       (forall i, i < len -> (forall p, In p hs -> B + i < p \/ p + pW <= B + i) -> M' (B' + i) = s_buf (sw_s w') i) ->
       (forall p x, In p hs -> read_word M p = Some x -> read_word M' (B' + (p - B)) = Some (B' + (x - B))) ->
       Forall2 (fun '(t, _, v) r => repr E any_header M' t (B' + r) v) xs rs).
Proof.
  intros k E m xs w fuel f rs z C HA HE Hok Hk H1 H2 Hs w' len B M.
  destruct (C68_separate k E m xs w fuel f rs z C HA HE Hok Hk H1 H2 Hs) as (pss & Q1 & Q2 & Q3 & Q4).
  fold w' in Q1, Q3, Q4. fold B in Q1, Q3, Q4. fold M in Q1. fold len in Q3.
  assert (Hfx : fixes_ptrs k = true) by (destruct Hk; subst; reflexivity).
  assert (A1 : Forall (fun '(t, a, v) => repr E any_header m t a v /\ (vdepth v < f)%nat) xs).
  { apply Forall_forall. intros [[t a] v] Hin. destruct (H2 t a v Hin) as [(_ & _ & Hr) Hv]. auto. }
  destruct (encode_all_some E HE k m any_header f xs (s_pos (sw_s w)) A1) as [e He].
  assert (A2 : Forall (fun '(t, a, v) => input_ok E m any_header fuel t a v /\ (vdepth v < f)%nat) xs).
  { apply Forall_forall. intros [[t a] v] Hin. destruct (H2 t a v Hin) as [(V1 & V2 & V3) Hv].
    destruct (H1 t a v Hin) as [_ Hv']. unfold input_ok. auto. }
  assert (A3 : Forall (fun '(t, a, v) => (repr E any_header m t a v /\ wf_ty E t) /\ (vdepth v < f)%nat) xs).
  { apply Forall_forall. intros [[t a] v] Hin. destruct (H2 t a v Hin) as [(V1 & V2 & V3) Hv]. auto. }
  assert (A4 : Forall (fun '(t, a, v) => wf_ty E t /\ (vdepth v < f)%nat) xs).
  { eapply Forall_impl; [|exact A3]. intros [[t a] v]. tauto. }
  destruct (serialize_all_exact C HA E HE k m any_header fuel f xs w rs z e Hok A2 He Hs) as (R1 & R2 & R3 & R4).
  fold w' in R2, R3, R4. change (out_base k w') with B in R4.
  assert (Hroots : Forall2 (fun '(t, a, v) r => repr E any_header M t (B + r) v) xs rs).
  { assert (Hxs : Forall (fun '(t, a, v) => valid_input E any_header m t a v /\ (vdepth v < fuel)%nat) xs).
    { apply Forall_forall. intros [[t' a'] v'] Hin. apply H1. exact Hin. }
    pose proof (PropSerialize.C25_several_values k E m xs w fuel rs z C HA HE Hok Hxs Hs) as HF.
    eapply F2_impl; [|exact HF]. intros [[t a] v] r [Hx _]. apply Hx. exact Hk. }
  destruct (N.eq_dec (s_cap (sw_s w')) 0) as [Hc0|Hc0].
  - (* no buffer: there are only zero-sized values *)
    pose proof (ok_pos_le _ R3) as Hle. rewrite Hc0 in Hle.
    destruct (all_covers C E HE k m any_header f xs (s_pos (sw_s w)) e A3 He) as [K1 _].
    assert (Hz : Forall (fun '(t, a, v) => size_of E t = 0) xs).
    { assert (Hend : end_pos (s_pos (sw_s w)) (all_allocations E (map it_tv xs)) = 0) by lia.
      clear - C HE A3 Hend. generalize dependent (s_pos (sw_s w)).
      induction xs as [|[[t a] v] xs IH]; intros c Hend; [constructor|].
      inversion A3 as [|? ? Hx0 Hys]; subst. destruct Hx0 as [[Hr Hw] Hv].
      unfold all_allocations in Hend. cbn [map it_tv flat_map fst snd] in Hend. rewrite end_pos_app in Hend.
      pose proof (end_pos_ge C (end_pos c (allocations E t v)) (flat_map (fun tv => allocations E (fst tv) (snd tv)) (map it_tv xs))) as Hge. pose proof Hend as Hend'. rewrite Hend in Hge.
      constructor; [|eapply IH; [exact Hys|exact Hend]].
      unfold allocations in Hge. destruct (N.eqb_spec (size_of E t) 0) as [|Hn]; [assumption|]. exfalso.
      cbn [app end_pos] in Hge.
      pose proof (end_pos_ge C (push_end c (layout_of E t) 1) (owned E t v)).
      pose proof (push_end_ge C c (layout_of E t) 1). unfold size_of in Hn. lia. }
    exists []. ands.
    + clear - Hz. revert rs. induction Hz as [|[[t a] v] xs Ht Hz IH]; intros [|r rs]; try reflexivity.
      rewrite found_cons. cbn [all_handles]. unfold root_handles. rewrite Ht. rewrite IH. reflexivity.
    + pose proof (all_length E M B f xs rs pss [] (F2_length _ _ _ Hroots) Q1) as HL.
      rewrite Q4, map_length, blocks_length, allocations_length in HL. cbn [length] in *.
      assert (Hn : all_handles E M f (inputs (found_at B xs rs)) = Some []).
      { clear - Hz. revert rs. induction Hz as [|[[t a] v] xs Ht Hz IH]; intros [|r rs]; try reflexivity.
        rewrite found_cons. cbn [all_handles]. unfold root_handles. rewrite Ht. rewrite IH. reflexivity. }
      specialize (HL Hn). lia.
    + constructor.
    + intros p [].
    + intros B' M' _ _ _ _ _. clear - C HE A4 Hroots Hz.
      induction Hroots as [|[[t a] v] r xs rs Hx Hroots IH]; constructor.
      * inversion Hz; inversion A4; subst. eapply (zst_repr C E HE); [exact Hx|tauto|assumption].
      * apply IH; [inversion A4; assumption|inversion Hz; assumption].
  - specialize (R4 ltac:(lia)). destruct R4 as (R4 & _).
    pose proof R3 as (O1 & O2 & O3 & O4 & O5 & O6). destruct (O6 ltac:(lia)) as (P1 & P2 & P3).
    assert (HBd : (MVA | B)).
    { unfold B, read_base. destruct k; try apply N.divide_0_r. eapply N.divide_trans; [apply (c_MVA_dvd_SA C)|exact P2]. }
    assert (HBl : B + len <= umod) by (unfold B, read_base, len; destruct k; lia).
    assert (Hh : all_handles E M f (inputs (found_at B xs rs)) = Some (map (N.add B) (ptr_words e))).
    { eapply (roots_handles C E HE k Hfx m M (at_base B w') B); eauto.
      - intros i b. unfold M, out_mem, at_base. destruct ((B <=? i) && (i <? B + s_pos (sw_s w'))); [auto|discriminate].
      - rewrite <- R2. exact HBl. }
    set (hs := map (N.add B) (ptr_words e)) in *.
    assert (Hgo : forall B' M', (MVA | B') -> 0 < B' ->
       goes M M' B B' hs (concat pss) (Forall2 (fun '(t, a, v) r => repr E any_header M' t (B' + r) v) xs rs)).
    { intros B' M' D1 D2. eapply (roots_go C E HE M M' B B' HBd D1 D2 f); eauto. }
    assert (Hpx : forall p, In p hs -> exists x, read_word M p = Some x /\ B + s_pos (sw_s w) <= x /\ x < B + len).
    { intros p Hp. destruct (all_lead E M B f xs rs pss hs (F2_length _ _ _ Hroots) Q1 Hh p Hp) as (x & n & B1 & B2 & B3).
      apply Q3 in B2. exists x. ands; [exact B1|lia|lia]. }
    destruct (Hgo MVA M (N.divide_refl _) (c_MVA_pos C)) as [W G0].
    exists hs. ands; auto.
    + pose proof (all_length E M B f xs rs pss hs (F2_length _ _ _ Hroots) Q1 Hh) as HL.
      rewrite Q4, map_length, blocks_length, allocations_length in HL. lia.
    + exact (proj1 (G0 Q2)).
    + intros p Hp. destruct (W p Hp) as (st & n & Hin & Hx). apply Q3 in Hin. ands; [lia|lia|]. apply Hpx. exact Hp.
    + intros B' M' D1 D2 D3 D4 D5. destruct (Hgo B' M' D2 D1) as [_ G]. destruct (G Q2) as [_ G']. apply G'.
      * intros st n Hin. apply Q3 in Hin. unfold mv. lia.
      * intros i (st & n & Hin & Hi) Hc. apply Q3 in Hin. unfold mv.
        rewrite D4; [|lia|].
        -- unfold M, out_mem. fold len. replace ((B <=? i) && (i <? B + len)) with true by lia. reflexivity.
        -- intros p Hp. destruct (N.lt_ge_cases (B + (i - B)) p); [auto|]. destruct (N.le_gt_cases (p + pW) (B + (i - B))); [auto|].
           exfalso. apply Hc. exists p. split; [exact Hp|lia].
      * intros p Hp. destruct (Hpx p Hp) as (x & Hx & _). exists x. split; [exact Hx|]. apply D5; assumption.
Qed.

(** The program that copies the bytes and replaces those words gets the values. *)
Theorem C78_load {P : Params} : forall k E m xs w fuel f rs z B',
  cfg_ok -> alloc_ok -> wf_env E -> storage_ok w ->
  k = PtrOffset \/ k = Complete ->
  valid_inputs E m xs fuel -> valid_inputs E m xs f ->
  serialize_all k E m fuel (inputs xs) (from_storage w) = Ok rs z ->
  let w' := z_sw z in
  let len := s_pos (sw_s w') in
  let B := read_base k w' in
  let M := out_mem B w' in
  0 < B' -> (MVA | B') -> B' + len <= umod ->
  exists hs,
    all_handles E M f (inputs (found_at B xs rs)) = Some hs /\
    Forall2 (fun '(t, _, v) r => repr E any_header (load M B B' len hs) t (B' + r) v) xs rs.
Proof.
  intros k E m xs w fuel f rs z B' C HA HE Hok Hk H1 H2 Hs w' len B M D1 D2 D3.
  destruct (C78_relocate k E m xs w fuel f rs z C HA HE Hok Hk H1 H2 Hs) as (hs & A1 & _ & A2 & A3 & A4).
  exists hs. split; [exact A1|]. apply A4; auto; fold w'; fold len; fold B; fold M.
  - intros i Hi Hout. unfold load. rewrite load_miss.
    + unfold copied. replace ((B' <=? B' + i) && (B' + i <? B' + len)) with true by lia.
      unfold M, out_mem. fold len. replace (B + (B' + i - B')) with (B + i) by lia.
      replace ((B <=? B + i) && (B + i <? B + len)) with true by lia. f_equal. lia.
    + intros p Hp. destruct (A3 p Hp) as (P1 & P2 & _). fold w' in P1, P2. fold B in P1, P2. destruct (Hout p Hp); lia.
  - intros p x Hp Hx. unfold load. apply load_hit; auto.
    + intros q Hq. destruct (A3 q Hq) as (P1 & _). fold w' in P1. fold B in P1. lia.
    + intros q Hq. destruct (A3 q Hq) as (_ & _ & y & Y1 & Y2 & Y3). exists y. split; [exact Y1|].
      fold w' in Y2, Y3. fold B in Y2, Y3. fold len in Y3. lia.
Qed.

(** A concrete case: the output of PropEncode's values loaded at another address.  There a Complete
    output and a PtrOffset output differ, after loading, in the capacities only. *)
From Verif Require Import StorageProps PropStorage PropSerialize Demo WitnessSerialize.
Theorem C78_witness : forall k, k = PtrOffset \/ k = Complete ->
  0 < 32768 /\ (@MVA demo | 32768) /\
  match @serialize_all demo k no_env demo_mem 10 (inputs PropEncode.demo_items) (from_storage demo_w) with
  | Ok rs z =>
      let B := read_base k (z_sw z) in
      let M := out_mem B (z_sw z) in
      B = match k with Complete => 196608 | _ => 0 end /\
      @all_handles demo no_env M 10 (inputs (found_at B PropEncode.demo_items rs)) = Some [B + 8; B + 24; B + 40; B + 120] /\
      let M' := @load demo M B 32768 (s_pos (sw_s (z_sw z))) [B + 8; B + 24; B + 40; B + 120] in
      map (@read_word demo M') [32768 + 8; 32768 + 16; 32768 + 24; 32768 + 40; 32768 + 120; 32768 + 128] =
        [Some (32768 + 88); Some match k with Complete => 2 | _ => 4 end; Some (32768 + 96); Some (32768 + 104); Some (32768 + 128); Some 77]
  | _ => False
  end.
Proof.
  intros k Hk. ands; [reflexivity|exists 2048; reflexivity|]. destruct Hk; subst k; vm_compute; repeat split.
Qed.
