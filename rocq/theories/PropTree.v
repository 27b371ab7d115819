(** * PropTree: the output is a tree (C68).

    In the output of the serializers that rewrite pointers, every Box, Vec and String owns memory
    of its own: no two pointers lead to the same bytes, even where the input shares them (a
    reference-like input, or one value serialized twice).  So a reader may change or move out of
    one value without touching another. *)
From Verif Require Import Base Types Storage Serializer Serialize Spec ArithFacts StorageFacts StorageHist Frame MemFacts TypeFacts
  SerFacts SerMain SerValue SerRoot SerProps UserPanic Client ClientSpec ClientFacts Encode EncodeFacts Idem PropClient PropUse PropEncode PropGaps.
From Coq Require Import ZifyBool ZifyNat ZifyN.
Local Open Scope N_scope.

(** ** Specification: the memory a value in memory owns *)
Definition cat2 {A} (x y : option (list A)) : option (list A) :=
  match x, y with Some a, Some b => Some (a ++ b) | _, _ => None end.

Section Places.
Context {P : Params}.
Variable E : tenv.
Variable M : mem.

Fixpoint places_elems (f : N -> option (list (N * N))) (sz : N) (n : nat) (a : N) : option (list (N * N)) :=
  match n with
  | O => Some []
  | S n' => cat2 (f a) (places_elems f sz n' (a + sz))
  end.
Fixpoint places_fields (f : ty -> N -> option (list (N * N))) (fs : list (N * ty)) (a : N) : option (list (N * N)) :=
  match fs with
  | [] => Some []
  | (off, t) :: fs' => cat2 (f t (a + off)) (places_fields f fs' a)
  end.

(** The blocks (address, bytes) reached from the [t] at [a] by following the pointers found in
    memory [M]; blocks without bytes are left out. *)
Fixpoint places (fuel : nat) (t : ty) (a : N) : option (list (N * N)) :=
  match fuel with
  | O => None
  | S fuel' =>
      match resolve E t with
      | TPrim _ _ => Some []
      | TBox t' =>
          if size_of E t' =? 0 then Some []
          else match read_word M a with
               | Some p => cat2 (Some [(p, size_of E t')]) (places fuel' t' p)
               | None => None
               end
      | TVec vl t' =>
          match read_word M (a + ptr_off vl), read_word M (a + len_off vl) with
          | Some p, Some n =>
              if (size_of E t' =? 0) || (n =? 0) then Some []
              else cat2 (Some [(p, size_of E t' * n)]) (places_elems (places fuel' t') (size_of E t') (N.to_nat n) p)
          | _, _ => None
          end
      | TString vl =>
          match read_word M (a + ptr_off vl), read_word M (a + len_off vl) with
          | Some p, Some n => if n =? 0 then Some [] else Some [(p, n)]
          | _, _ => None
          end
      | TArray t' n => places_elems (places fuel' t') (size_of E t') (N.to_nat n) a
      | TStruct _ fs => places_fields (places fuel') fs a
      | TEnum _ d vss =>
          match read_discr M a d with
          | Some v =>
              match nth_error vss v with
              | Some fs => places_fields (places fuel') fs a
              | None => None
              end
          | None => None
          end
      | TNamed _ => None
      end
  end.

(** The value itself and what it owns. *)
Definition root_places (fuel : nat) (t : ty) (a : N) : option (list (N * N)) :=
  if size_of E t =? 0 then Some [] else cat2 (Some [(a, size_of E t)]) (places fuel t a).
End Places.

(** No two blocks of the list (at different places in it) share a byte. *)
Definition separate (bs : list (N * N)) : Prop :=
  ForallOrdPairs (fun x y => disjoint (fst x) (snd x) (fst y) (snd y)) bs.

Definition shift (B : N) (x : N * N) : N * N := (B + fst x, snd x).

Section Facts.
Context {P : Params}.

Section Main.
Hypothesis C : cfg_ok.
Variable E : tenv.
Hypothesis HE : wf_env E.
Variable k : kind.
Hypothesis Hk : fixes_ptrs k = true.
Variable m M M2 : mem.
Variable B : N.
Hypothesis Hsub : forall i b, M i = Some b -> M2 i = Some b.

Lemma read_bytes_sub n : forall a l, read_bytes M a n = Some l -> read_bytes M2 a n = Some l.
Proof.
  induction n as [|n IH]; intros a l Hr; cbn [read_bytes] in *; [exact Hr|].
  destruct (M a) as [b|] eqn:Eb; [|discriminate]. rewrite (Hsub _ _ Eb).
  destruct (read_bytes M (a + 1) n) as [bs|] eqn:Er; [|discriminate]. rewrite (IH _ _ Er). exact Hr.
Qed.
Lemma read_word_sub a x : read_word M a = Some x -> read_word M2 a = Some x.
Proof.
  unfold read_word, read_int. destruct (read_bytes M a (N.to_nat pW)) as [l|] eqn:El; [|discriminate].
  rewrite (read_bytes_sub _ _ _ El). auto.
Qed.

Definition patched (e : enc) : Prop :=
  forall q w, In (q, w) (e_patches e) -> forall i, i < pW -> M2 (B + (q + i)) = patch_src B w i.

Lemma patched_then e1 e2 c :
  patched (mkEnc (e_copies e1 ++ e_copies e2) (e_patches e1 ++ e_patches e2) c) -> patched e1 /\ patched e2.
Proof. intros H. split; intros q w Hin; apply (H q w); cbn; apply in_or_app; auto. Qed.

(** A pointer of the output leads to the block written for it. *)
Lemma patched_ptr e q st x :
  patched e -> In (q, PPtr st) (e_patches e) -> B + st < umod -> read_word M (B + q) = Some x -> x = B + st.
Proof.
  intros Hp Hin Hlt Hx. apply read_word_sub in Hx.
  rewrite (read_word_src M2 (B + q) (B + st) Hlt) in Hx; [congruence|].
  intros i Hi. rewrite <- N.add_assoc. apply (Hp _ _ Hin i Hi).
Qed.

Lemma cat2_some {A} (x y : option (list A)) a b c : x = Some a -> y = Some b -> c = a ++ b -> cat2 x y = Some c.
Proof. intros -> -> ->. reflexivity. Qed.

Lemma shift_blocks c l n ps :
  map (shift B) (blocks c ((l, n) :: ps)) = (B + push_start c l, l_size l * n) :: map (shift B) (blocks (push_end c l n) ps).
Proof. reflexivity. Qed.

Lemma owned_places H t a v : repr E H m t a v ->
  forall f p cur e, (vdepth v < f)%nat ->
  encode k E m f t a p cur = Some e -> patched e -> B + e_end e <= umod ->
  repr E any_header M t (B + p) v ->
  places E M f t (B + p) = Some (map (shift B) (blocks cur (owned E t v))).
Proof.
  intros HR. revert t a v HR.
  apply (repr_mind P E H m
    (fun t a v _ => forall f p cur e, (vdepth v < f)%nat ->
       encode k E m f t a p cur = Some e -> patched e -> B + e_end e <= umod ->
       repr E any_header M t (B + p) v ->
       places E M f t (B + p) = Some (map (shift B) (blocks cur (owned E t v))))
    (fun t a vs _ => forall f p cur e, (list_max (map vdepth vs) < f)%nat ->
       enc_elems (encode k E m f t) (size_of E t) (length vs) a p cur = Some e -> patched e -> B + e_end e <= umod ->
       repr_elems E any_header M t (B + p) vs ->
       places_elems (places E M f t) (size_of E t) (length vs) (B + p) =
         Some (map (shift B) (blocks cur (flat_map (owned E t) vs))))
    (fun fs a vs _ => forall f p cur e, (list_max (map vdepth vs) < f)%nat ->
       enc_fields (encode k E m f) fs a p cur = Some e -> patched e -> B + e_end e <= umod ->
       repr_fields E any_header M fs (B + p) vs ->
       places_fields (places E M f) fs (B + p) =
         Some (map (shift B) (blocks cur (owned_fields E vs fs))))).
  - intros l ok a n Hr Hok [|f] p cur e Hf He Hp HB Ho; [lia|]. reflexivity.
  - intros t a tp v Hpw Hv Hh Hrep IH [|f] p cur e Hf He Hp HB Ho; [lia|].
    cbn [encode places resolve owned vdepth] in *.
    destruct (N.eqb_spec (size_of E t) 0); [reflexivity|].
    inversion Ho as [|? ? x ? Hx Hvx _ Hox| | | | | |]; subst.
    rewrite Hpw in He. unfold block_enc in He.
    apply then_inv in He. destruct He as (e1 & e2 & He1 & He2 & ->).
    inversion He1; subst e1; clear He1. cbn [e_end e_patches e_copies] in *.
    destruct (encode_some k E m HE H t tp v Hrep f (push_start cur (layout_of E t)) (push_end cur (layout_of E t) 1) ltac:(lia)) as (e2' & He2' & [Hend _]).
    rewrite He2 in He2'. inversion He2'; subst e2'; clear He2'.
    pose proof (push_end_ge C cur (layout_of E t) 1). pose proof (end_ge C (owned E t v) (push_end cur (layout_of E t) 1)).
    unfold size_of in n.
    assert (x = B + push_start cur (layout_of E t)).
    { eapply patched_ptr; [exact Hp| |lia|exact Hx]. cbn. rewrite Hk. left. reflexivity. }
    subst x. rewrite Hx. eapply cat2_some; [reflexivity| |].
    + eapply IH; [|exact He2| |lia|exact Hox]; [lia|]. intros q' w' Hin'; apply (Hp q' w'); cbn [e_patches]; apply in_or_app; right; exact Hin'.
    + rewrite shift_blocks. cbn [app]. rewrite N.mul_1_r. reflexivity.
  - intros vl t a c tp vs Hc Hpw Hn Hvec Hh Hel IH [|f] p cur e Hf He Hp HB Ho; [lia|].
    cbn [encode places resolve owned vdepth] in *.
    inversion Ho as [| |? ? ? c' x ? Hc' Hx Hn' Hv' _ Hox| | | | |]; subst.
    rewrite Hx, Hn'. rewrite Hc, Hpw, Hn in He. unfold enc_vec, block_enc in He. unfold size_of in *.
    destruct (N.eqb_spec (l_size (layout_of E t)) 0) as [H1|H1]; cbn [orb]; [reflexivity|].
    destruct (N.eqb_spec (N.of_nat (length vs)) 0) as [H2|H2]; [reflexivity|].
    apply then_inv in He. destruct He as (e1 & e2 & He1 & He2 & ->).
    inversion He1; subst e1; clear He1. cbn [e_end e_patches e_copies] in *. rewrite Nat2N.id in *.
    assert (Hrel : exists e2', enc_elems (encode k E m f t) (l_size (layout_of E t)) (length vs) tp (push_start cur (layout_of E t))
       (push_end cur (layout_of E t) (N.of_nat (length vs))) = Some e2' /\
       e_end e2' = end_pos (push_end cur (layout_of E t) (N.of_nat (length vs))) (flat_map (owned E t) vs)).
    { destruct (encode_some k E m HE H (TVec vl t) a (VVec vs)) with (f := S f) (p := p) (cur := cur) as (e' & He' & Hcov).
      - econstructor; eassumption.
      - cbn [vdepth]. lia.
      - exists e2. split; [exact He2|].
        cbn [encode resolve] in He'. rewrite Hc, Hpw, Hn in He'. unfold enc_vec, block_enc in He'.
        rewrite (proj2 (N.eqb_neq _ _) H1), (proj2 (N.eqb_neq _ _) H2) in He'.
        apply then_inv in He'. destruct He' as (e1' & e2' & A1 & A2 & ->). inversion A1; subst e1'; clear A1.
        cbn [e_end e_patches e_copies] in *. unfold size_of in A2. rewrite Nat2N.id, He2 in A2. inversion A2; subst e2'.
        destruct Hcov as [Hcov _]. cbn [e_end owned resolve] in Hcov. unfold size_of in Hcov.
        rewrite (proj2 (N.eqb_neq _ _) H1), (proj2 (N.eqb_neq _ _) H2) in Hcov. exact Hcov. }
    destruct Hrel as (e2' & Q1 & Hend). rewrite He2 in Q1. inversion Q1; subst e2'; clear Q1.
    pose proof (push_end_ge C cur (layout_of E t) (N.of_nat (length vs))).
    pose proof (end_ge C (flat_map (owned E t) vs) (push_end cur (layout_of E t) (N.of_nat (length vs)))).
    assert (0 < l_size (layout_of E t) * N.of_nat (length vs)) by (apply N.mul_pos_pos; lia).
    assert (x = B + push_start cur (layout_of E t)).
    { rewrite <- N.add_assoc in Hx. eapply patched_ptr; [exact Hp| |lia|exact Hx]. cbn. rewrite Hk.
      apply in_or_app. left. apply in_or_app. right. left. reflexivity. }
    subst x. eapply cat2_some; [reflexivity| |].
    + eapply IH; [|exact He2| |lia|exact Hox]; [lia|]. intros q' w' Hin'; apply (Hp q' w'); cbn [e_patches]; apply in_or_app; right; exact Hin'.
    + rewrite shift_blocks. reflexivity.
  - intros vl a c tp bs Hc Hpw Hn Hvec Hh Hel [|f] p cur e Hf He Hp HB Ho; [lia|].
    cbn [encode places resolve owned vdepth] in *.
    inversion Ho as [| | |? ? c' x ? Hc' Hx Hn' Hv' _ Hox| | | |]; subst.
    rewrite Hx, Hn'. rewrite Hc, Hpw, Hn in He. unfold enc_vec, block_enc in He.
    cbn [u8_layout l_size] in He. change (1 =? 0) with false in He.
    destruct (N.eqb_spec (N.of_nat (length bs)) 0) as [H2|H2]; [reflexivity|].
    apply then_inv in He. destruct He as (e1 & e2 & He1 & He2 & ->).
    inversion He1; subst e1; clear He1. inversion He2; subst e2; clear He2. cbn [nothing e_end e_patches e_copies] in *.
    pose proof (push_end_ge C cur u8_layout (N.of_nat (length bs))) as Hge. cbn [u8_layout l_size] in Hge.
    assert (x = B + push_start cur u8_layout).
    { rewrite <- N.add_assoc in Hx. eapply patched_ptr; [exact Hp| |cbn [u8_layout] in *; lia|exact Hx]. cbn [e_patches]. rewrite Hk.
      apply in_or_app. left. apply in_or_app. right. left. reflexivity. }
    subst x. cbn [blocks map shift fst snd u8_layout l_size]. rewrite N.mul_1_l. reflexivity.
  - intros t n a vs -> Hel IH [|f] p cur e Hf He Hp HB Ho; [lia|]. cbn [encode places resolve owned vdepth] in *.
    rewrite Nat2N.id in *. inversion Ho; subst. eapply IH; eauto. lia.
  - intros l fs a vs Hfs IH [|f] p cur e Hf He Hp HB Ho; [lia|]. cbn [vdepth] in Hf. rewrite owned_struct.
    cbn [encode places resolve] in *. inversion Ho; subst. eapply IH; eauto. lia.
  - intros l d vss a kk fs vs Hd Hkk Hfs IH [|f] p cur e Hf He Hp HB Ho; [lia|]. cbn [vdepth] in Hf.
    rewrite (owned_enum E l d vss kk fs vs Hkk). cbn [encode places resolve] in *. rewrite Hd, Hkk in He.
    inversion Ho as [| | | | | |? ? ? ? ? ? ? Hd' Hk' Hf'|]; subst. rewrite Hd', Hkk. rewrite Hkk in Hk'. inversion Hk'; subst.
    eapply IH; eauto. lia.
  - intros id d a v Hid Hv IH [|f] p cur e Hf He Hp HB Ho; [lia|].
    rewrite (owned_named E HE id d v Hid).
    inversion Ho as [| | | | | | |? d' ? ? Hid' Hd']; subst. rewrite Hid in Hid'. inversion Hid'; subst d'.
    destruct (resolve_named E HE id d Hid) as [Q1 Q2].
    rewrite <- (IH (S f) p cur e); auto.
    + cbn [places]. rewrite Q1, Q2. reflexivity.
    + cbn [encode] in *. rewrite Q1 in He. rewrite Q2. exact He.
  - intros t a f p cur e Hf He Hp HB Ho. reflexivity.
  - intros t a v vs Hv IH1 Hvs IH2 f p cur e Hf He Hp HB Ho. cbn [map] in Hf. rewrite list_max_cons in Hf.
    cbn [length enc_elems places_elems flat_map] in *.
    apply then_inv in He. destruct He as (e1 & e2 & He1 & He2 & ->). apply patched_then in Hp. destruct Hp as [Hp1 Hp2].
    cbn [e_end] in HB. inversion Ho as [|? ? ? ? Ho1 Ho2]; subst.
    destruct (encode_some k E m HE H t a v Hv f p cur ltac:(lia)) as (e1' & He1' & [Hend1 _]).
    rewrite He1 in He1'. inversion He1'; subst e1'.
    assert (Hend2 : e_end e1 <= e_end e2).
    { destruct (encode_some k E m HE H (TArray t (N.of_nat (length vs))) (a + size_of E t) (VArray vs)) with (f := S f) (p := p + size_of E t) (cur := e_end e1) as (e' & He' & [Hc' _]).
      - constructor; [reflexivity|exact Hvs].
      - cbn [vdepth]. lia.
      - cbn [encode resolve] in He'. rewrite Nat2N.id, He2 in He'. inversion He'; subst e'. rewrite Hc'. apply (end_ge C). }
    eapply cat2_some.
    + eapply (IH1 f p cur); eauto; lia.
    + rewrite <- N.add_assoc. eapply (IH2 f (p + size_of E t) (e_end e1)); eauto; try lia. rewrite N.add_assoc. exact Ho2.
    + rewrite blocks_app, map_app, Hend1. reflexivity.
  - intros a f p cur e Hf He Hp HB Ho. reflexivity.
  - intros off t fs a v vs Hv IH1 Hvs IH2 f p cur e Hf He Hp HB Ho. cbn [map] in Hf. rewrite list_max_cons in Hf.
    cbn [enc_fields places_fields owned_fields] in *.
    apply then_inv in He. destruct He as (e1 & e2 & He1 & He2 & ->). apply patched_then in Hp. destruct Hp as [Hp1 Hp2].
    cbn [e_end] in HB. inversion Ho as [|? ? ? ? ? ? Ho1 Ho2]; subst.
    destruct (encode_some k E m HE H t (a + off) v Hv f (p + off) cur ltac:(lia)) as (e1' & He1' & [Hend1 _]).
    rewrite He1 in He1'. inversion He1'; subst e1'.
    assert (Hend2 : e_end e1 <= e_end e2).
    { destruct (encode_some k E m HE H (TStruct (mkLayout 0 1) fs) a (VStruct vs)) with (f := S f) (p := p) (cur := e_end e1) as (e' & He' & [Hc' _]).
      - constructor. exact Hvs.
      - cbn [vdepth]. lia.
      - cbn [encode resolve] in He'. rewrite He2 in He'. inversion He'; subst e'. rewrite Hc'. apply (end_ge C). }
    eapply cat2_some.
    + rewrite <- N.add_assoc. eapply (IH1 f (p + off) cur); eauto; try lia. rewrite N.add_assoc. exact Ho1.
    + eapply (IH2 f p (e_end e1)); eauto; lia.
    + rewrite blocks_app, map_app, Hend1. reflexivity.
Qed.

Lemma roots_places H f : forall (xs : list item) c e,
  Forall (fun '(t, a, v) => (repr E H m t a v /\ wf_ty E t) /\ (vdepth v < f)%nat) xs ->
  encode_all k E m f (map it_in xs) c = Some e -> patched e -> B + e_end e <= umod ->
  Forall2 (fun '(t, a, v) r => repr E any_header M t (B + r) v) xs (root_positions E c (map it_tv xs)) ->
  exists pss,
    Forall2 (fun x ps => root_places E M f (fst x) (B + snd x) = Some ps)
      (combine (map fst (map it_in xs)) (root_positions E c (map it_tv xs))) pss /\
    concat pss = map (shift B) (blocks c (all_allocations E (map it_tv xs))).
Proof.
  induction xs as [|[[t a] v] xs IH]; intros c e Hall He Hp HB Hr.
  - exists []. split; [constructor|reflexivity].
  - inversion Hall as [|? ? Hx0 Hys]; subst. cbn beta iota in Hx0. destruct Hx0 as [[Hrep Hw] Hv].
    cbn [map it_in it_tv fst snd encode_all root_positions] in *.
    apply then_inv in He. destruct He as (e1 & e2 & He1 & He2 & ->).
    apply patched_then in Hp. destruct Hp as [Hp1 Hp2]. cbn [e_end] in HB.
    inversion Hr as [|? ? ? ? Hr1 Hr2]; subst. cbn beta iota in Hr1.
    destruct (root_covers C E HE k m H f t a v c e1 Hrep Hw Hv He1) as [K1 K2].
    destruct (all_covers C E HE k m H f xs (e_end e1) e2 Hys He2) as [L1 L2].
    pose proof (end_pos_ge C (e_end e1) (all_allocations E (map it_tv xs))).
    rewrite <- K1 in Hr2. rewrite <- K1.
    destruct (IH (e_end e1) e2 Hys He2 Hp2 ltac:(lia) Hr2) as (pss & A1 & A2).
    assert (Hroot : root_places E M f t (B + root_pos E c t) = Some (map (shift B) (blocks c (allocations E t v)))).
    { unfold root_places, root_pos, allocations in *. unfold encode_root in He1.
      destruct (N.eqb_spec (size_of E t) 0) as [Hs|Hs].
      - rewrite (proj1 (zst_value C E HE _ _ _ _ _ Hrep Hw Hs)). reflexivity.
      - apply then_inv in He1. destruct He1 as (d1 & d2 & Hd1 & Hd2 & ->). inversion Hd1; subst d1; clear Hd1.
        cbn [e_end e_patches e_copies app] in *.
        eapply cat2_some; [reflexivity| |].
        + eapply owned_places; [exact Hrep|exact Hv|exact Hd2| |lia|exact Hr1].
          intros q' w' Hin'; apply (Hp1 q' w'); cbn [e_patches]; exact Hin'.
        + cbn [app]. rewrite shift_blocks. cbn [app]. rewrite N.mul_1_r. reflexivity. }
    exists (map (shift B) (blocks c (allocations E t v)) :: pss). split.
    + cbn [combine]. constructor; [exact Hroot|]. exact A1.
    + cbn [concat]. rewrite A2. unfold all_allocations. cbn [flat_map fst snd]. rewrite (blocks_app c (allocations E t v)), map_app, K1. reflexivity.
Qed.
End Main.

(** ** Blocks laid out one after the other do not overlap *)
Lemma blocks_within (C : cfg_ok) ps : forall c, Forall (fun x => good_layout (fst x)) ps ->
  Forall (fun x => c <= fst x /\ fst x + snd x <= end_pos c ps) (blocks c ps).
Proof.
  induction ps as [|[l n] ps IH]; intros c Hg; cbn [blocks end_pos]; [constructor|].
  inversion Hg as [|? ? Hl Hps]; subst. cbn [fst] in Hl.
  pose proof (push_start_ge C c l (proj1 Hl)). pose proof (push_end_ge C c l n).
  pose proof (end_pos_ge C (push_end c l n) ps).
  constructor; cbn [fst snd].
  - split; lia.
  - eapply Forall_impl; [|apply IH; exact Hps]. cbv beta. intros x [A B]. split; [|exact B].
    enough (push_start c l <= push_end c l n) by lia. eapply N.le_trans; [|apply (push_end_ge C c l n)]. apply N.le_add_r.
Qed.

Lemma blocks_separate (C : cfg_ok) ps : forall c, Forall (fun x => good_layout (fst x)) ps -> separate (blocks c ps).
Proof.
  induction ps as [|[l n] ps IH]; intros c Hg; cbn [blocks]; [constructor|].
  inversion Hg as [|? ? Hl Hps]; subst. constructor; [|apply IH; exact Hps].
  eapply Forall_impl; [|apply (blocks_within C); exact Hps]. cbv beta. intros x [A _]. cbn [fst snd].
  left. pose proof (push_end_ge C c l n). lia.
Qed.

Lemma separate_shift B bs : separate bs -> separate (map (shift B) bs).
Proof.
  induction 1 as [|x bs Hx Hbs IH]; cbn [map]; constructor; [|exact IH].
  apply Forall_map. eapply Forall_impl; [|exact Hx]. unfold disjoint, shift. cbn [fst snd]. intros y. lia.
Qed.

(** ** A value depends on its own places only *)
Section FrameSec.
Hypothesis C : cfg_ok.
Variable E : tenv.
Hypothesis HE : wf_env E.
Variable H : header.
Variable M M' : mem.

Definition same_on (a n : N) : Prop := forall i, a <= i -> i < a + n -> M' i = M i.
Definition same_in (ps : list (N * N)) : Prop := forall i, in_a_block ps i -> M' i = M i.

Lemma same_in_app ps qs : same_in (ps ++ qs) -> same_in ps /\ same_in qs.
Proof.
  intros Hs. split; intros i (st & n & Hin & Hi); apply Hs; exists st, n; (split; [apply in_or_app; auto|exact Hi]).
Qed.
Lemma same_in_one a n : same_in [(a, n)] -> same_on a n.
Proof. intros Hs i Hi1 Hi2. apply Hs. exists a, n. split; [left; reflexivity|auto]. Qed.

Lemma cat2_inv {A} (x y : option (list A)) c : cat2 x y = Some c -> exists a b, x = Some a /\ y = Some b /\ c = a ++ b.
Proof. destruct x, y; cbn; try discriminate. intros Hq; inversion Hq. eauto. Qed.

Lemma word_same a off : same_on a (3 * pW) -> off + pW <= 3 * pW -> read_word M' (a + off) = read_word M (a + off).
Proof. intros Hs Ho. apply read_word_ext. intros i Hi. apply Hs; lia. Qed.

Lemma repr_frame t a v : repr E H M t a v -> wf_ty E t ->
  forall f ps, (vdepth v < f)%nat -> places E M f t a = Some ps ->
  same_on a (size_of E t) -> same_in ps -> repr E H M' t a v.
Proof.
  intros HR. pose proof (pW_vals (c_machine C)) as HpW. revert t a v HR.
  apply (repr_mind P E H M
    (fun t a v _ => wf_ty E t -> forall f ps, (vdepth v < f)%nat -> places E M f t a = Some ps ->
       same_on a (size_of E t) -> same_in ps -> repr E H M' t a v)
    (fun t a vs _ => wf_ty E t -> forall f ps, (list_max (map vdepth vs) < f)%nat ->
       places_elems (places E M f t) (size_of E t) (length vs) a = Some ps ->
       same_on a (size_of E t * N.of_nat (length vs)) -> same_in ps -> repr_elems E H M' t a vs)
    (fun fs a vs _ => forall l, fields_ok E l fs -> (forall o t, In (o, t) fs -> wf_ty E t) ->
       forall f ps, (list_max (map vdepth vs) < f)%nat ->
       places_fields (places E M f) fs a = Some ps ->
       same_on a (l_size l) -> same_in ps -> repr_fields E H M' fs a vs)).
  - intros l ok a n Hr Hok _ f ps _ _ Hs _. constructor; [|exact Hok]. rewrite <- Hr. apply read_int_ext.
    intros i Hi. apply Hs; [lia|]. unfold size_of; cbn [layout_of]. lia.
  - intros t a tp v Hpw Hv Hh Hrep IH Hw [|f] ps Hf Hps Hs Hin; [lia|]. inversion Hw; subst.
    cbn [places resolve vdepth] in *.
    econstructor; [|exact Hv|exact Hh|].
    + rewrite <- Hpw. apply read_word_ext. intros i Hi. apply Hs; [lia|]. unfold size_of; cbn [layout_of l_size usize_layout]. lia.
    + destruct (N.eqb_spec (size_of E t) 0) as [Hz|Hz].
      * eapply (zst_repr C E HE); eassumption.
      * rewrite Hpw in Hps. apply cat2_inv in Hps. destruct Hps as (x & y & Hx & Hy & ->). inversion Hx; subst x; clear Hx.
        apply same_in_app in Hin. destruct Hin as [Hin1 Hin2]. apply same_in_one in Hin1.
        apply (IH ltac:(assumption) f y); auto; lia.
  - intros vl t a c tp vs Hc Hpw Hn Hvec Hh Hel IH Hw [|f] ps Hf Hps Hs Hin; [lia|]. inversion Hw; subst.
    cbn [places resolve vdepth] in *.
    destruct (vl_offs vl ltac:(lia)) as (V1 & V2 & V3 & V4 & V5 & V6 & V7 & V8 & V9).
    assert (Hs3 : same_on a (3 * pW)) by exact Hs.
    econstructor; [rewrite word_same by (auto; lia); exact Hc|rewrite word_same by (auto; lia); exact Hpw
      |rewrite word_same by (auto; lia); exact Hn|exact Hvec|exact Hh|].
    rewrite Hpw, Hn in Hps.
    destruct (N.eqb_spec (size_of E t) 0) as [Hz|Hz]; cbn [orb] in Hps.
    + eapply (zst_elems C E HE); eassumption.
    + destruct (N.eqb_spec (N.of_nat (length vs)) 0) as [Hl|Hl].
      * destruct vs; [constructor|cbn in Hl; lia].
      * apply cat2_inv in Hps. destruct Hps as (x & y & Hx & Hy & ->). inversion Hx; subst x; clear Hx.
        apply same_in_app in Hin. destruct Hin as [Hin1 Hin2]. apply same_in_one in Hin1. rewrite Nat2N.id in Hy.
        apply (IH ltac:(assumption) f y); auto; lia.
  - intros vl a c tp bs Hc Hpw Hn Hvec Hh Hel Hw [|f] ps Hf Hps Hs Hin; [lia|].
    cbn [places resolve vdepth] in *.
    destruct (vl_offs vl ltac:(lia)) as (V1 & V2 & V3 & V4 & V5 & V6 & V7 & V8 & V9).
    assert (Hs3 : same_on a (3 * pW)) by exact Hs.
    econstructor; [rewrite word_same by (auto; lia); exact Hc|rewrite word_same by (auto; lia); exact Hpw
      |rewrite word_same by (auto; lia); exact Hn|exact Hvec|exact Hh|].
    rewrite Hpw, Hn in Hps.
    destruct (N.eqb_spec (N.of_nat (length bs)) 0) as [Hl|Hl].
    + destruct bs; [reflexivity|cbn in Hl; lia].
    + inversion Hps; subst ps. apply same_in_one in Hin. transitivity (read_bytes M tp (length bs)); [|exact Hel]. apply read_bytes_ext.
      intros i Hi. apply Hin; lia.
  - intros t n a vs -> Hel IH Hw [|f] ps Hf Hps Hs Hin; [lia|]. inversion Hw; subst.
    cbn [places resolve vdepth] in *. rewrite Nat2N.id in Hps. constructor; [reflexivity|].
    apply (IH ltac:(assumption) f ps); auto; lia.
  - intros l fs a vs Hfs IH Hw [|f] ps Hf Hps Hs Hin; [lia|]. inversion Hw; subst.
    cbn [places resolve vdepth] in *. constructor. eapply (IH l ltac:(assumption) ltac:(assumption) f ps); auto; lia.
  - intros l d vss a kk fs vs Hd Hkk Hfs IH Hw [|f] ps Hf Hps Hs Hin; [lia|].
    inversion Hw as [| | | | | |? ? ? Hl Hdo Hfo Hall|]; subst.
    cbn [places resolve vdepth] in *. rewrite Hd, Hkk in Hps.
    econstructor; [|exact Hkk|].
    + rewrite <- Hd. apply read_discr_ext. unfold size_of in Hs; cbn [layout_of] in Hs.
      destruct Hdo; auto; intros i Hi; apply Hs; lia.
    + apply (IH l ltac:(eauto) ltac:(eauto) f ps); auto; lia.
  - intros id d a v Hid Hv IH Hw [|f] ps Hf Hps Hs Hin; [lia|].
    destruct (resolve_named E HE id d Hid) as [Q1 Q2].
    econstructor; [exact Hid|]. apply (IH (proj1 (HE id d Hid)) (S f) ps); auto.
    + cbn [places] in *. rewrite Q1 in Hps. rewrite Q2. exact Hps.
    + unfold size_of in *. rewrite (named_size E HE id d Hid) in Hs. exact Hs.
  - intros. constructor.
  - intros t a v vs Hv IH1 Hvs IH2 Hw f ps Hf Hps Hs Hin. cbn [map] in Hf. rewrite list_max_cons in Hf.
    cbn [length places_elems] in *. apply cat2_inv in Hps. destruct Hps as (x & y & Hx & Hy & ->).
    apply same_in_app in Hin. destruct Hin as [Hin1 Hin2].
    replace (size_of E t * N.of_nat (S (length vs))) with (size_of E t + size_of E t * N.of_nat (length vs)) in Hs by lia.
    constructor.
    + apply (IH1 Hw f x); auto; [lia|]. intros i A1 A2. apply Hs; lia.
    + apply (IH2 Hw f y); auto; [lia|]. intros i A1 A2. apply Hs; lia.
  - intros. constructor.
  - intros off t fs a v vs Hv IH1 Hvs IH2 l Hfo Hall f ps Hf Hps Hs Hin. cbn [map] in Hf. rewrite list_max_cons in Hf.
    cbn [places_fields] in *. apply cat2_inv in Hps. destruct Hps as (x & y & Hx & Hy & ->).
    apply same_in_app in Hin. destruct Hin as [Hin1 Hin2]. inversion Hfo; subst.
    constructor.
    + apply (IH1 (Hall off t (or_introl eq_refl)) f x); auto; [lia|]. intros i A1 A2. apply Hs; lia.
    + apply (IH2 l ltac:(assumption) (fun o u Hi => Hall o u (or_intror Hi)) f y); auto; lia.
Qed.

End FrameSec.
End Facts.

(** ** C68 *)

(** [read_base k w]: the address at which the output's pointers are right (the storage's for
    Complete, 0 for PtrOffset). *)
Theorem C68_separate {P : Params} : forall k E m xs w fuel f rs z,
  cfg_ok -> alloc_ok -> wf_env E -> storage_ok w ->
  k = PtrOffset \/ k = Complete ->
  valid_inputs E m xs fuel -> valid_inputs E m xs f ->
  serialize_all k E m fuel (inputs xs) (from_storage w) = Ok rs z ->
  let w' := z_sw z in
  let B := read_base k w' in
  let M := out_mem B w' in
  exists pss,
    Forall2 (fun '(t, r) ps => root_places E M f t (B + r) = Some ps) (combine (map fst (inputs xs)) rs) pss /\
    separate (concat pss) /\
    (forall st n, In (st, n) (concat pss) -> B + s_pos (sw_s w) <= st /\ st + n <= B + s_pos (sw_s w')) /\
    concat pss = map (shift B) (blocks (s_pos (sw_s w)) (all_allocations E (values xs))).
Proof.
  intros k E m xs w fuel f rs z C HA HE Hok Hk H1 H2 Hs w' B M.
  assert (Hfx : fixes_ptrs k = true) by (destruct Hk; subst; reflexivity).
  assert (Htr : tracking k = true) by (destruct Hk; subst; reflexivity).
  assert (A1 : Forall (fun '(t, a, v) => repr E any_header m t a v /\ (vdepth v < f)%nat) xs).
  { apply Forall_forall. intros [[t a] v] Hin. destruct (H2 t a v Hin) as [(_ & _ & Hr) Hv]. auto. }
  destruct (encode_all_some E HE k m any_header f xs (s_pos (sw_s w)) A1) as [e He].
  assert (A2 : Forall (fun '(t, a, v) => input_ok E m any_header fuel t a v /\ (vdepth v < f)%nat) xs).
  { apply Forall_forall. intros [[t a] v] Hin. destruct (H2 t a v Hin) as [(V1 & V2 & V3) Hv].
    destruct (H1 t a v Hin) as [_ Hv']. unfold input_ok. auto. }
  assert (A2' : Forall (fun '(t, a, v) => input_ok E m any_header fuel t a v) xs).
  { eapply Forall_impl; [|exact A2]. intros [[t a] v]. tauto. }
  assert (A3 : Forall (fun '(t, a, v) => (repr E any_header m t a v /\ wf_ty E t) /\ (vdepth v < f)%nat) xs).
  { apply Forall_forall. intros [[t a] v] Hin. destruct (H2 t a v Hin) as [(V1 & V2 & V3) Hv]. auto. }
  assert (Hgood : Forall (fun x => good_layout (fst x)) (all_allocations E (map it_tv xs))).
  { unfold all_allocations. apply Forall_flat_map. apply Forall_map.
    eapply Forall_impl; [|exact A2']. intros [[t a] v] Hx. apply (allocations_good C); [exact HE|apply Hx]. }
  destruct (serialize_all_exact C HA E HE k m any_header fuel f xs w rs z e Hok A2 He Hs) as (R1 & R2 & R3 & R4).
  destruct (all_covers C E HE k m any_header f xs (s_pos (sw_s w)) e A3 He) as [K1 K2].
  pose proof (serialize_all_spec C HA E HE k m any_header any_header (transfers_any k) fuel xs w Hok A2') as HS.
  rewrite inputs_in in Hs. rewrite Hs in HS. destruct HS as (S1 & S2 & S3 & S4 & S5 & S6 & S7 & S8).
  assert (HBase : out_base k w' = B) by reflexivity.
  fold w' in R2, R3, R4, S2, S3, S4, S8. rewrite HBase in R4.
  assert (Hroots : Forall2 (fun '(t, a, v) r => repr E any_header M t (B + r) v) xs
                     (root_positions E (s_pos (sw_s w)) (map it_tv xs))).
  { rewrite <- S1. eapply F2_impl; [|exact S8]. intros [[t a] v] r [Hx _]. apply Hx. exact Htr. }
  assert (Hpl : exists pss,
    Forall2 (fun x ps => root_places E M f (fst x) (B + snd x) = Some ps)
      (combine (map fst (map it_in xs)) (root_positions E (s_pos (sw_s w)) (map it_tv xs))) pss /\
    concat pss = map (shift B) (blocks (s_pos (sw_s w)) (all_allocations E (map it_tv xs)))).
  { destruct (N.eq_dec (s_cap (sw_s w')) 0) as [Hc0|Hc0].
    - (* nothing was ever allocated: there are only zero-sized values *)
      pose proof (ok_pos_le _ S4) as Hle.
      clear - C HE A3 S2 Hle Hc0. rewrite Hc0 in Hle.
      assert (Hend : end_pos (s_pos (sw_s w)) (all_allocations E (map it_tv xs)) = 0) by lia.
      clear S2 Hle Hc0. generalize dependent (s_pos (sw_s w)).
      induction xs as [|[[t a] v] xs IH]; intros c Hend; [exists []; split; [constructor|reflexivity]|].
      inversion A3 as [|? ? Hx0 Hys]; subst. destruct Hx0 as [[Hr Hw] Hv].
      cbn [map] in Hend |- *. unfold all_allocations in Hend. cbn [flat_map] in Hend.
      change (fst (it_tv (t, a, v))) with t in *. change (snd (it_tv (t, a, v))) with v in *.
      rewrite end_pos_app in Hend.
      assert (Hz : size_of E t = 0).
      { pose proof (end_pos_ge C (end_pos c (allocations E t v)) (flat_map (fun tv => allocations E (fst tv) (snd tv)) (map it_tv xs))) as Hge.
        rewrite Hend in Hge. unfold allocations in Hge.
        destruct (N.eqb_spec (size_of E t) 0) as [|Hn]; [assumption|]. exfalso.
        cbn [app end_pos] in Hge.
        pose proof (end_pos_ge C (push_end c (layout_of E t) 1) (owned E t v)).
        pose proof (push_end_ge C c (layout_of E t) 1). unfold size_of in Hn. lia. }
      assert (Hal : allocations E t v = []).
      { unfold allocations. rewrite Hz. rewrite (proj1 (zst_value C E HE _ _ _ _ _ Hr Hw Hz)). reflexivity. }
      rewrite Hal in Hend. cbn [end_pos] in Hend.
      destruct (IH Hys c Hend) as (pss & Q1 & Q2).
      exists ([] :: pss). change (it_tv (t, a, v)) with (t, v). change (it_in (t, a, v)) with (t, a). cbn [fst root_positions combine]. rewrite Hal. cbn [end_pos]. split.
      + constructor; [|exact Q1]. cbn [fst snd]. unfold root_places. rewrite Hz. reflexivity.
      + cbn [concat app]. rewrite Q2. unfold all_allocations. cbn [flat_map fst snd]. rewrite Hal. reflexivity.
    - specialize (R4 ltac:(lia)). destruct R4 as (R4 & _).
      eapply (roots_places C E HE k Hfx m M (at_base B w')); [|exact A3|exact He|exact R4| |exact Hroots].
      + intros i b. unfold M, out_mem, at_base. destruct ((B <=? i) && (i <? B + s_pos (sw_s w'))); [auto|discriminate].
      + rewrite <- R2. destruct S4 as (O1 & O2 & O3 & O4 & O5 & O6). destruct (O6 ltac:(lia)) as (P1 & P2 & P3).
        unfold B, read_base. destruct k; lia. }
  destruct Hpl as (pss & Q1 & Q2). exists pss.
  rewrite inputs_in, R1, values_tv. ands.
  - eapply F2_impl; [|exact Q1]. intros [t r] ps Hx. exact Hx.
  - rewrite Q2. apply separate_shift. apply (blocks_separate C). exact Hgood.
  - rewrite Q2. intros st n Hin. apply in_map_iff in Hin. destruct Hin as ([st' n'] & Heq & Hin). inversion Heq; subst.
    pose proof (blocks_within C _ (s_pos (sw_s w)) Hgood) as Hb. rewrite Forall_forall in Hb.
    specialize (Hb _ Hin). cbn [fst snd] in *. rewrite S2. lia.
  - exact Q2.
Qed.

Lemma fop_app {A} (R : A -> A -> Prop) l1 l2 : ForallOrdPairs R (l1 ++ l2) ->
  ForallOrdPairs R l1 /\ ForallOrdPairs R l2 /\ (forall x y, In x l1 -> In y l2 -> R x y).
Proof.
  induction l1 as [|a l1 IH]; cbn [app]; intros Hx.
  - ands; [constructor|exact Hx|intros x y []].
  - inversion Hx as [|? ? H1 H2]; subst. destruct (IH H2) as (A1 & A2 & A3). rewrite Forall_app in H1.
    ands; [constructor; tauto|exact A2|].
    intros x y [->|Hin] Hy; [|auto]. destruct H1 as [_ H1]. rewrite Forall_forall in H1. auto.
Qed.

Lemma separate_concat : forall pss i j ps qs x,
  separate (concat pss) -> nth_error pss i = Some ps -> nth_error pss j = Some qs -> i <> j ->
  in_a_block ps x -> in_a_block qs x -> False.
Proof.
  intros pss. induction pss as [|ps0 pss IH]; intros i j ps qs x Hs Hi Hj Hij Hx Hy; [destruct i; discriminate|].
  cbn [concat] in Hs. apply fop_app in Hs. destruct Hs as (S1 & S2 & S3).
  assert (Hcross : forall ps qs, In ps [ps0] -> In qs pss -> in_a_block ps x -> in_a_block qs x -> False).
  { clear Hx Hy. intros p1 q1 [<-|[]] Hq (st & n & A1 & A2 & A3) (st' & n' & B1 & B2 & B3).
    specialize (S3 (st, n) (st', n') A1). unfold disjoint in S3. cbn [fst snd] in S3.
    assert (In (st', n') (concat pss)) by (apply in_concat; exists q1; auto). specialize (S3 H). lia. }
  destruct i as [|i], j as [|j]; cbn [nth_error] in *; [congruence| | |].
  - inversion Hi; subst. eapply (Hcross ps qs); eauto; [left; reflexivity|]. eapply nth_error_In; exact Hj.
  - inversion Hj; subst. eapply (Hcross qs ps); eauto; [left; reflexivity|]. eapply nth_error_In; exact Hi.
  - eapply (IH i j); eauto.
Qed.

Lemma F2_nth {A B} (R : A -> B -> Prop) l1 l2 : Forall2 R l1 l2 ->
  forall i x, nth_error l1 i = Some x -> exists y, nth_error l2 i = Some y /\ R x y.
Proof.
  induction 1 as [|a b l1 l2 Hab H12 IH]; intros [|i] x Hx; cbn in *; try discriminate.
  - inversion Hx; subst. eauto.
  - eauto.
Qed.

Lemma combine_nth_error {A B} (l1 : list A) (l2 : list B) i x y :
  nth_error l1 i = Some x -> nth_error l2 i = Some y -> nth_error (combine l1 l2) i = Some (x, y).
Proof.
  revert l2 i. induction l1 as [|a l1 IH]; intros [|b l2] [|i] Hx Hy; cbn in *; try discriminate; [congruence|auto].
Qed.

(** A value found in the output depends on the bytes it owns only. *)
Theorem C68_owned_only {P : Params} : forall k E m xs w fuel f rs z j t a v r M',
  cfg_ok -> alloc_ok -> wf_env E -> storage_ok w ->
  k = PtrOffset \/ k = Complete ->
  valid_inputs E m xs fuel -> valid_inputs E m xs f ->
  serialize_all k E m fuel (inputs xs) (from_storage w) = Ok rs z ->
  nth_error xs j = Some (t, a, v) -> nth_error rs j = Some r ->
  let w' := z_sw z in
  let B := read_base k w' in
  let M := out_mem B w' in
  (forall ps x, root_places E M f t (B + r) = Some ps -> in_a_block ps x -> M' x = M x) ->
  repr E any_header M' t (B + r) v.
Proof.
  intros k E m xs w fuel f rs z j t a v r M' C HA HE Hok Hk H1 H2 Hs Hj Hr w' B M HM.
  destruct (C68_separate k E m xs w fuel f rs z C HA HE Hok Hk H1 H2 Hs) as (pss & Q1 & _).
  assert (Hx : valid_input E any_header m t a v /\ (vdepth v < f)%nat) by (apply H2; eapply nth_error_In; exact Hj).
  destruct Hx as [(Hwf & _ & _) Hv].
  assert (Hrep : repr E any_header M t (B + r) v).
  { assert (Hxs : Forall (fun '(t, a, v) => valid_input E any_header m t a v /\ (vdepth v < fuel)%nat) xs).
    { apply Forall_forall. intros [[t' a'] v'] Hin. apply H1. exact Hin. }
    pose proof (PropSerialize.C25_several_values k E m xs w fuel rs z C HA HE Hok Hxs Hs) as HF.
    destruct (F2_nth _ _ _ HF j _ Hj) as (r' & Hr' & Hx & _). rewrite Hr in Hr'. inversion Hr'; subst r'.
    apply Hx. exact Hk. }
  assert (Hnt : nth_error (combine (map fst (inputs xs)) rs) j = Some (t, r)).
  { apply combine_nth_error; [|exact Hr]. unfold inputs. rewrite map_map. rewrite (map_nth_error _ _ _ Hj). reflexivity. }
  destruct (F2_nth _ _ _ Q1 j _ Hnt) as (ps & _ & Hps). cbv beta iota in Hps. fold w' in Hps. fold B in Hps. fold M in Hps.
  specialize (HM ps). pose proof Hps as Hps0. unfold root_places in Hps.
  destruct (N.eqb_spec (size_of E t) 0) as [Hz|Hz].
  - eapply (zst_repr C E HE); eassumption.
  - apply cat2_inv in Hps. destruct Hps as (x & y & Hx & Hy & ->). inversion Hx; subst x; clear Hx.
    eapply (repr_frame C E HE any_header M M'); eauto.
    + intros i Hi1 Hi2. apply HM; [exact Hps0|]. exists (B + r), (size_of E t). split; [left; reflexivity|auto].
    + intros i (st & n & Hin & Hi). apply HM; [exact Hps0|]. exists st, n. split; [right; exact Hin|exact Hi].
Qed.

(** So rewriting, in any way, memory owned by one value of the output leaves the others as they were. *)
Theorem C68_change_one {P : Params} : forall k E m xs w fuel f rs z i ti ai vi ri j tj aj vj rj M',
  cfg_ok -> alloc_ok -> wf_env E -> storage_ok w ->
  k = PtrOffset \/ k = Complete ->
  valid_inputs E m xs fuel -> valid_inputs E m xs f ->
  serialize_all k E m fuel (inputs xs) (from_storage w) = Ok rs z ->
  nth_error xs i = Some (ti, ai, vi) -> nth_error rs i = Some ri ->
  nth_error xs j = Some (tj, aj, vj) -> nth_error rs j = Some rj -> i <> j ->
  let w' := z_sw z in
  let B := read_base k w' in
  let M := out_mem B w' in
  (forall ps x, root_places E M f ti (B + ri) = Some ps -> ~ in_a_block ps x -> M' x = M x) ->
  repr E any_header M' tj (B + rj) vj.
Proof.
  intros k E m xs w fuel f rs z i ti ai vi ri j tj aj vj rj M' C HA HE Hok Hk H1 H2 Hs Hi Hri Hj Hrj Hij w' B M HM.
  destruct (C68_separate k E m xs w fuel f rs z C HA HE Hok Hk H1 H2 Hs) as (pss & Q1 & Q2 & _).
  eapply (C68_owned_only k E m xs w fuel f rs z j); eauto. intros qs x Hqs Hx.
  fold w' in Hqs |- *. fold B in Hqs |- *. fold M in Hqs |- *.
  assert (Hn : forall n t a v r, nth_error xs n = Some (t, a, v) -> nth_error rs n = Some r ->
     exists ps, nth_error pss n = Some ps /\ root_places E M f t (B + r) = Some ps).
  { intros n t a v r A1 A2.
    assert (Hnt : nth_error (combine (map fst (inputs xs)) rs) n = Some (t, r)).
    { apply combine_nth_error; [|exact A2]. unfold inputs. rewrite map_map. rewrite (map_nth_error _ _ _ A1). reflexivity. }
    destruct (F2_nth _ _ _ Q1 n _ Hnt) as (ps & X1 & X2). eauto. }
  destruct (Hn i _ _ _ _ Hi Hri) as (ps & X1 & X2). destruct (Hn j _ _ _ _ Hj Hrj) as (qs' & Y1 & Y2).
  rewrite Hqs in Y2. inversion Y2; subst qs'.
  apply (HM ps); [exact X2|]. intros Hin. exact (separate_concat pss i j ps qs x Q2 X1 Y1 Hij Hin Hx).
Qed.

(** A concrete case: the demo struct, and the Box inside it serialized again on its own.  In the
    input the two share the boxed number; in the output they do not. *)
From Verif Require Import StorageProps PropStorage PropSerialize Demo WitnessSerialize.
Lemma C68_hypotheses : @cfg_ok demo /\ @alloc_ok demo /\ @wf_env demo no_env /\ @storage_ok demo demo_w /\
  @valid_inputs demo no_env demo_mem PropEncode.demo_items 10.
Proof. ands; [exact demo_cfg|exact demo_alloc_ok|exact no_env_wf|exact demo_w_ok|exact C54_hypotheses]. Qed.

Example C68_witness :
  @root_places demo no_env demo_mem 10 t_demo 4096 = Some [(4096, 88); (8192, 8); (8208, 4); (8224, 2)] /\
  @root_places demo no_env demo_mem 10 (TBox t_u64) 4104 = Some [(4104, 8); (8192, 8)] /\
  match @serialize_all demo Complete no_env demo_mem 10 (inputs PropEncode.demo_items) (from_storage demo_w) with
  | Ok rs z =>
      let B := s_ptr (sw_s (z_sw z)) in
      let M := out_mem B (z_sw z) in
      @root_places demo no_env M 10 t_demo (B + 0) = Some [(B + 0, 88); (B + 88, 8); (B + 96, 4); (B + 104, 2)] /\
      @root_places demo no_env M 10 t_u32 (B + 112) = Some [(B + 112, 4)] /\
      @root_places demo no_env M 10 (TBox t_u64) (B + 120) = Some [(B + 120, 8); (B + 128, 8)]
  | _ => False
  end.
Proof. vm_compute. repeat split. Qed.
