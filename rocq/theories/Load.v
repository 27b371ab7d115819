(** * Load: values moved to another address (used by PropLoad, C78).

    [handles]: the pointer words a reader follows from a value in memory.  If memory is moved from
    base [B] to base [B'] and exactly those words are adjusted, the value is found again. *)
From Coq Require Import Permutation Arith.
From Verif Require Import Base Types Storage Serializer Serialize Spec ArithFacts StorageFacts StorageHist Frame MemFacts TypeFacts
  SerFacts SerMain SerValue SerRoot SerProps Encode EncodeFacts PropGaps PropTree.
From Coq Require Import ZifyBool ZifyNat ZifyN.
Local Open Scope N_scope.

(** ** Specification: the pointer words a reader follows *)
Section Handles.
Context {P : Params}.
Variable E : tenv.
Variable M : mem.

Fixpoint handles_elems (f : N -> option (list N)) (sz : N) (n : nat) (a : N) : option (list N) :=
  match n with
  | O => Some []
  | S n' => cat2 (f a) (handles_elems f sz n' (a + sz))
  end.
Fixpoint handles_fields (f : ty -> N -> option (list N)) (fs : list (N * ty)) (a : N) : option (list N) :=
  match fs with
  | [] => Some []
  | (off, t) :: fs' => cat2 (f t (a + off)) (handles_fields f fs' a)
  end.

(** The addresses of the pointer words of the [t] at [a] and of what it owns, found by following
    them in memory [M]; pointers to nothing (an empty Vec or String, contents without bytes) are
    left out. *)
Fixpoint handles (fuel : nat) (t : ty) (a : N) : option (list N) :=
  match fuel with
  | O => None
  | S fuel' =>
      match resolve E t with
      | TPrim _ _ => Some []
      | TBox t' =>
          if size_of E t' =? 0 then Some []
          else match read_word M a with
               | Some p => cat2 (Some [a]) (handles fuel' t' p)
               | None => None
               end
      | TVec vl t' =>
          match read_word M (a + ptr_off vl), read_word M (a + len_off vl) with
          | Some p, Some n =>
              if (size_of E t' =? 0) || (n =? 0) then Some []
              else cat2 (Some [a + ptr_off vl]) (handles_elems (handles fuel' t') (size_of E t') (N.to_nat n) p)
          | _, _ => None
          end
      | TString vl =>
          match read_word M (a + len_off vl) with
          | Some n => if n =? 0 then Some [] else Some [a + ptr_off vl]
          | _ => None
          end
      | TArray t' n => handles_elems (handles fuel' t') (size_of E t') (N.to_nat n) a
      | TStruct _ fs => handles_fields (handles fuel') fs a
      | TEnum _ d vss =>
          match read_discr M a d with
          | Some v =>
              match nth_error vss v with
              | Some fs => handles_fields (handles fuel') fs a
              | None => None
              end
          | None => None
          end
      | TNamed _ => None
      end
  end.
End Handles.

(** ** Block lists *)
Lemma fop_perm {A} (R : A -> A -> Prop) : (forall x y, R x y -> R y x) ->
  forall l l', Permutation l l' -> ForallOrdPairs R l -> ForallOrdPairs R l'.
Proof.
  intros HR l l' HP. induction HP as [|x l l' HP IH|x y l|l1 l2 l3 H1 IH1 H2 IH2]; intros Hl; auto.
  - inversion Hl; subst. constructor; [|auto]. eapply Permutation_Forall; eassumption.
  - inversion Hl as [|? ? A1 A2]; subst. inversion A2; subst. inversion A1; subst.
    constructor; [constructor; auto|constructor; auto].
Qed.
Lemma separate_perm l l' : Permutation l l' -> separate l -> separate l'.
Proof. apply fop_perm. unfold disjoint. intros x y. lia. Qed.

Definition words (W : N) (hs : list N) : list (N * N) := map (fun p => (p, W)) hs.

Section Move.
Context {P : Params}.
Variables M M' : mem.
Variables B B' : N.

(** Where the byte at [x] of the old memory goes. *)
Definition mv (x : N) : N := B' + (x - B).

Definition covered (hs : list N) (i : N) : Prop := exists p, In p hs /\ p <= i /\ i < p + pW.
Definition within (hs : list N) (bs : list (N * N)) : Prop :=
  forall p, In p hs -> exists st n, In (st, n) bs /\ st <= p /\ p + pW <= st + n.
Definition moved_on (hs : list N) (bs : list (N * N)) : Prop :=
  forall i, in_a_block bs i -> ~ covered hs i -> M' (mv i) = M i.
Definition moved_ptrs (hs : list N) : Prop :=
  forall p, In p hs -> exists x, read_word M p = Some x /\ read_word M' (mv p) = Some (mv x).
Definition inside (bs : list (N * N)) : Prop :=
  forall st n, In (st, n) bs -> B <= st /\ mv st + n <= umod.

Lemma within_covered hs bs i : within hs bs -> covered hs i -> in_a_block bs i.
Proof. intros Hw (p & Hp & Hi). destruct (Hw p Hp) as (st & n & Hin & Hx). exists st, n. split; [exact Hin|lia]. Qed.

Lemma separate_app_no bs cs i : separate (bs ++ cs) -> in_a_block bs i -> in_a_block cs i -> False.
Proof.
  intros Hs (st & n & H1 & H2) (st' & n' & H3 & H4). apply fop_app in Hs. destruct Hs as (_ & _ & Hs).
  specialize (Hs _ _ H1 H3). unfold disjoint in Hs. cbn [fst snd] in Hs. lia.
Qed.

Lemma words_app W hs1 hs2 : words W (hs1 ++ hs2) = words W hs1 ++ words W hs2.
Proof. apply map_app. Qed.

Lemma fop_app_intro {A} (R : A -> A -> Prop) l1 l2 : ForallOrdPairs R l1 -> ForallOrdPairs R l2 ->
  (forall x y, In x l1 -> In y l2 -> R x y) -> ForallOrdPairs R (l1 ++ l2).
Proof.
  induction 1 as [|x l1 Hx Hl IH]; intros H2 Hc; cbn [app]; [exact H2|]. constructor.
  - apply Forall_app. split; [exact Hx|]. apply Forall_forall. intros y Hy. apply Hc; [left; reflexivity|exact Hy].
  - apply IH; [exact H2|]. intros y y' Hy Hy'. apply Hc; [right; exact Hy|exact Hy'].
Qed.

(** Two lists of blocks that do not overlap, with the words inside each. *)
Lemma split2 X X1 X2 hs1 hs2 : Permutation X (X1 ++ X2) -> within hs1 X1 -> within hs2 X2 ->
  within (hs1 ++ hs2) X /\
  (separate X ->
     separate X1 /\ separate X2 /\
     (separate (words pW hs1) -> separate (words pW hs2) -> separate (words pW (hs1 ++ hs2))) /\
     (inside X -> inside X1 /\ inside X2) /\
     (moved_on (hs1 ++ hs2) X -> moved_on hs1 X1 /\ moved_on hs2 X2) /\
     (moved_ptrs (hs1 ++ hs2) -> moved_ptrs hs1 /\ moved_ptrs hs2)).
Proof.
  intros HP W1 W2.
  assert (Hin : forall x, In x X <-> In x X1 \/ In x X2).
  { intros x. rewrite <- in_app_iff. split; apply Permutation_in; [exact HP|apply Permutation_sym; exact HP]. }
  split.
  - intros p Hp. apply in_app_or in Hp. destruct Hp as [Hp|Hp]; [destruct (W1 p Hp) as (st & n & A & Hx)|destruct (W2 p Hp) as (st & n & A & Hx)];
      exists st, n; (split; [apply Hin; auto|exact Hx]).
  - intros Hs. apply (separate_perm _ _ HP) in Hs. pose proof Hs as Hs'. apply fop_app in Hs'. destruct Hs' as (S1 & S2 & S3).
    ands; auto.
    + intros A1 A2. rewrite words_app. apply fop_app_intro; [exact A1|exact A2|].
      intros x y Hx Hy. apply in_map_iff in Hx. apply in_map_iff in Hy.
      destruct Hx as (p & <- & Hp). destruct Hy as (q & <- & Hq).
      destruct (W1 p Hp) as (st & n & I1 & L1). destruct (W2 q Hq) as (st' & n' & I2 & L2).
      specialize (S3 _ _ I1 I2). unfold disjoint in *. cbn [fst snd] in *. lia.
    + intros Hi. split; intros st n Hx; apply Hi; apply Hin; auto.
    + intros Hm. split; intros i Hi Hc; apply Hm.
      * destruct Hi as (st & n & I1 & L1). exists st, n. split; [apply Hin; auto|exact L1].
      * intros (p & Hp & Hx). apply in_app_or in Hp. destruct Hp as [Hp|Hp]; [apply Hc; exists p; auto|].
        apply (separate_app_no X1 X2 i Hs Hi). eapply within_covered; [exact W2|exists p; auto].
      * destruct Hi as (st & n & I1 & L1). exists st, n. split; [apply Hin; auto|exact L1].
      * intros (p & Hp & Hx). apply in_app_or in Hp. destruct Hp as [Hp|Hp]; [|apply Hc; exists p; auto].
        apply (separate_app_no X1 X2 i Hs); [|exact Hi]. eapply within_covered; [exact W1|exists p; auto].
    + intros Hm. split; intros p Hp; apply Hm; apply in_or_app; auto.
Qed.

Lemma mv_add a off : B <= a -> mv (a + off) = mv a + off.
Proof. unfold mv. lia. Qed.

Lemma moved_word hs X a : moved_on hs X -> B <= a ->
  (forall i, i < pW -> in_a_block X (a + i)) -> (forall i, i < pW -> ~ covered hs (a + i)) ->
  read_word M' (mv a) = read_word M a.
Proof. intros Hm Ha H1 H2. apply read_word_ext. intros i Hi. rewrite <- mv_add by exact Ha. apply Hm; auto. Qed.
Lemma moved_int hs X a sz : moved_on hs X -> B <= a ->
  (forall i, i < sz -> in_a_block X (a + i)) -> (forall i, i < sz -> ~ covered hs (a + i)) ->
  read_int M' (mv a) sz = read_int M a sz.
Proof. intros Hm Ha H1 H2. apply read_int_ext. intros i Hi. rewrite <- mv_add by exact Ha. apply Hm; auto. Qed.
Lemma moved_bytes hs X a n : moved_on hs X -> B <= a ->
  (forall i, i < N.of_nat n -> in_a_block X (a + i)) -> (forall i, i < N.of_nat n -> ~ covered hs (a + i)) ->
  read_bytes M' (mv a) n = read_bytes M a n.
Proof. intros Hm Ha H1 H2. apply read_bytes_ext. intros i Hi. rewrite <- mv_add by exact Ha. apply Hm; auto. Qed.

End Move.

(** ** A value moved with its pointer words adjusted is found again *)
Section MoveRepr.
Context {P : Params}.
Hypothesis C : cfg_ok.
Variable E : tenv.
Hypothesis HE : wf_env E.
Variables M M' : mem.
Variables B B' : N.
Hypothesis HB : (MVA | B).
Hypothesis HB' : (MVA | B').
Hypothesis HB0 : 0 < B'.
Variable H : header.

Notation mv := (mv B B').

Definition elem_ranges (sz : N) := fix go (n : nat) (a : N) : list (N * N) :=
  match n with O => [] | S n' => (a, sz) :: go n' (a + sz) end.
Definition field_ranges (fs : list (N * ty)) (a : N) : list (N * N) := map (fun x => (a + fst x, size_of E (snd x))) fs.

Lemma elem_ranges_in sz n : forall a st m, In (st, m) (elem_ranges sz n a) -> a <= st /\ st + m <= a + sz * N.of_nat n /\ m = sz.
Proof.
  induction n as [|n IH]; intros a st m Hin; cbn in Hin; [contradiction|].
  destruct Hin as [Heq|Hin].
  - inversion Heq; subst. nia.
  - apply IH in Hin. nia.
Qed.
Lemma elem_ranges_sep sz n : forall a, separate (elem_ranges sz n a).
Proof.
  induction n as [|n IH]; intros a; cbn; constructor; [|apply IH].
  apply Forall_forall. intros [st m] Hin. apply elem_ranges_in in Hin. unfold disjoint. cbn [fst snd]. lia.
Qed.
Lemma field_ranges_in l fs : fields_ok E l fs -> forall a st m, In (st, m) (field_ranges fs a) -> a <= st /\ st + m <= a + l_size l.
Proof.
  induction 1 as [|off t fs Ho Hal Hle Hd Hf IH]; intros a st m Hin; cbn in Hin; [contradiction|].
  destruct Hin as [Heq|Hin]; [inversion Heq; subst; lia|auto].
Qed.
Lemma field_ranges_sep l fs : fields_ok E l fs -> forall a, separate (field_ranges fs a).
Proof.
  induction 1 as [|off t fs Ho Hal Hle Hd Hf IH]; intros a; cbn; constructor; [|apply IH].
  apply Forall_forall. intros [st m] Hin. apply in_map_iff in Hin. destruct Hin as ([o u] & Heq & Hin).
  inversion Heq; subst. specialize (Hd o u Hin). unfold disjoint in *. cbn [fst snd]. lia.
Qed.

(** Splitting one block into parts of it. *)
Lemma refine_block a n rs ps : (forall st m, In (st, m) rs -> a <= st /\ st + m <= a + n) -> separate rs ->
  (forall i, in_a_block (rs ++ ps) i -> in_a_block ((a, n) :: ps) i) /\
  (separate ((a, n) :: ps) -> separate (rs ++ ps)) /\
  (forall hs, within hs (rs ++ ps) -> within hs ((a, n) :: ps)) /\
  (forall hs, moved_on M M' B B' hs ((a, n) :: ps) -> moved_on M M' B B' hs (rs ++ ps)) /\
  (B <= a -> mv a + n <= umod -> inside B B' ps -> inside B B' (rs ++ ps)).
Proof.
  intros Hin Hsep.
  assert (Hblk : forall i, in_a_block (rs ++ ps) i -> in_a_block ((a, n) :: ps) i).
  { intros i (st & m & Hx & Hi). apply in_app_or in Hx. destruct Hx as [Hx|Hx].
    - apply Hin in Hx. exists a, n. split; [left; reflexivity|lia].
    - exists st, m. split; [right; exact Hx|exact Hi]. }
  ands.
  - exact Hblk.
  - intros Hs. inversion Hs as [|? ? H1 H2]; subst. apply fop_app_intro; [exact Hsep|exact H2|].
    intros [st m] [st' m'] Hx Hy. apply Hin in Hx. rewrite Forall_forall in H1. specialize (H1 _ Hy).
    unfold disjoint in *. cbn [fst snd] in *. lia.
  - intros hs Hw p Hp. destruct (Hw p Hp) as (st & m & Hx & Hi). apply in_app_or in Hx. destruct Hx as [Hx|Hx].
    + apply Hin in Hx. exists a, n. split; [left; reflexivity|lia].
    + exists st, m. split; [right; exact Hx|exact Hi].
  - intros hs Hm i Hi Hc. apply Hm; auto.
  - intros Ha Hn Hi st m Hx. apply in_app_or in Hx. destruct Hx as [Hx|Hx]; [|apply Hi; exact Hx].
    apply Hin in Hx. unfold Load.mv in *. lia.
Qed.

Lemma mv_ref l n x : good_layout l -> valid_ref l n x -> B <= x -> mv x + l_size l * n <= umod -> valid_ref l n (mv x).
Proof.
  intros (G1 & G2 & G3 & G4) (V1 & V2 & V3) Hx Hn. unfold valid_ref. ands; auto; unfold Load.mv in *; try lia.
  assert (Hd : (l_align l | MVA)).
  { apply pow2_divide; auto. apply C. }
  apply N.divide_add_r; [etransitivity; eassumption|]. apply N.divide_sub_r; [exact V2|]. etransitivity; eassumption.
Qed.

(** The words found are in the value or in what it owns; they do not overlap; and the moved value is there. *)
Definition goes (hs : list N) (X : list (N * N)) (Q : Prop) : Prop :=
  within hs X /\
  (separate X -> separate (words pW hs) /\
     (inside B B' X -> moved_on M M' B B' hs X -> moved_ptrs M M' B B' hs -> Q)).

Lemma goes_nil X (Q : Prop) : (inside B B' X -> moved_on M M' B B' [] X -> Q) -> goes [] X Q.
Proof. intros HQ. split; [intros p []|]. intros _. split; [constructor|auto]. Qed.

Lemma goes_two X X1 X2 hs1 hs2 (Q1 Q2 Q : Prop) : Permutation X (X1 ++ X2) ->
  goes hs1 X1 Q1 -> goes hs2 X2 Q2 -> (Q1 -> Q2 -> Q) -> goes (hs1 ++ hs2) X Q.
Proof.
  intros HP [W1 G1] [W2 G2] HQ. destruct (split2 M M' B B' X X1 X2 hs1 hs2 HP W1 W2) as [A1 A2].
  split; [exact A1|]. intros Hs. destruct (A2 Hs) as (S1 & S2 & S3 & S4 & S5 & S6).
  destruct (G1 S1) as [D1 F1]. destruct (G2 S2) as [D2 F2]. split; [auto|].
  intros Hi Hm Hp. destruct (S4 Hi), (S5 Hm), (S6 Hp). auto.
Qed.

Lemma not_nil_covered i : ~ covered [] i.
Proof. intros (p & [] & _). Qed.

Lemma moved_repr t a v : repr E H M t a v -> wf_ty E t ->
  forall f ps hs, (vdepth v < f)%nat -> places E M f t a = Some ps -> handles E M f t a = Some hs ->
  goes hs ((a, size_of E t) :: ps) (repr E any_header M' t (mv a) v).
Proof.
  intros HR. pose proof (pW_vals (c_machine C)) as HpW. revert t a v HR.
  apply (repr_mind P E H M
    (fun t a v _ => wf_ty E t -> forall f ps hs, (vdepth v < f)%nat -> places E M f t a = Some ps -> handles E M f t a = Some hs ->
       goes hs ((a, size_of E t) :: ps) (repr E any_header M' t (mv a) v))
    (fun t a vs _ => wf_ty E t -> forall f ps hs, (list_max (map vdepth vs) < f)%nat ->
       places_elems (places E M f t) (size_of E t) (length vs) a = Some ps ->
       handles_elems (handles E M f t) (size_of E t) (length vs) a = Some hs ->
       goes hs (elem_ranges (size_of E t) (length vs) a ++ ps) (repr_elems E any_header M' t (mv a) vs))
    (fun fs a vs _ => (forall o t, In (o, t) fs -> wf_ty E t) ->
       forall f ps hs, (list_max (map vdepth vs) < f)%nat ->
       places_fields (places E M f) fs a = Some ps ->
       handles_fields (handles E M f) fs a = Some hs ->
       goes hs (field_ranges fs a ++ ps) (B <= a -> repr_fields E any_header M' fs (mv a) vs))).
  - (* prim *)
    intros l ok a n Hr Hok _ [|f] ps hs Hf Hps Hhs; [lia|]. cbn [places handles resolve] in *. inversion Hps; inversion Hhs; subst.
    apply goes_nil. intros Hi Hm. constructor; [|exact Hok]. rewrite <- Hr.
    apply (moved_int M M' B B' [] _ a _ Hm).
    + apply (Hi a (size_of E (TPrim l ok))). left; reflexivity.
    + intros i Hx. exists a, (size_of E (TPrim l ok)). split; [left; reflexivity|]. unfold size_of; cbn [layout_of]. lia.
    + intros i _. apply not_nil_covered.
  - (* box *)
    intros t a tp v Hpw Hv Hh Hrep IH Hw [|f] ps hs Hf Hps Hhs; [lia|]. inversion Hw; subst.
    cbn [places handles resolve vdepth] in *.
    destruct (N.eqb_spec (size_of E t) 0) as [Hz|Hz].
    + inversion Hps; inversion Hhs; subst. apply goes_nil. intros Hi Hm.
      econstructor; [|exact Hv|exact Logic.I|eapply (zst_repr C E HE); eassumption].
      rewrite <- Hpw. apply (moved_word M M' B B' [] _ a Hm).
      * apply (Hi a (size_of E (TBox t))). left; reflexivity.
      * intros i Hx. exists a, (size_of E (TBox t)). split; [left; reflexivity|]. unfold size_of; cbn [layout_of usize_layout l_size]. lia.
      * intros i _. apply not_nil_covered.
    + rewrite Hpw in Hps, Hhs. apply cat2_inv in Hps. destruct Hps as (x & y & Hx & Hy & ->). inversion Hx; subst x; clear Hx.
      apply cat2_inv in Hhs. destruct Hhs as (x & y' & Hx & Hy' & ->). inversion Hx; subst x; clear Hx.
      cbn [app] in *.
      eapply (goes_two _ [(a, size_of E (TBox t))] ((tp, size_of E t) :: y) [a] y'
        (B <= a /\ (B <= tp -> mv tp + size_of E t <= umod -> read_word M' (mv a) = Some (mv tp)))
        (B <= tp /\ mv tp + size_of E t <= umod /\ repr E any_header M' t (mv tp) v)).
      * apply Permutation_refl.
      * split.
        -- intros p [<-|[]]. exists a, (size_of E (TBox t)). split; [left; reflexivity|]. unfold size_of; cbn [layout_of usize_layout l_size]. lia.
        -- intros _. split; [repeat constructor|]. intros Hi Hm Hp. split; [apply (Hi a (size_of E (TBox t))); left; reflexivity|].
           intros _ _. destruct (Hp a ltac:(left; reflexivity)) as (x & Hx & Hx'). rewrite Hpw in Hx. inversion Hx; subst. exact Hx'.
      * destruct (IH ltac:(assumption) f y y' ltac:(lia) Hy Hy') as [W G]. split; [exact W|]. intros Hs. destruct (G Hs) as [G1 G2].
        split; [exact G1|]. intros Hi Hm Hp. destruct (Hi tp (size_of E t) ltac:(left; reflexivity)). auto.
      * intros (A1 & A2) (B1 & B2 & B3). econstructor; [exact (A2 B1 B2)| |exact Logic.I|exact B3].
        apply mv_ref; [apply (wf_good C E HE); assumption|exact Hv|exact B1|]. fold (size_of E t). lia.
  - (* vec *)
    intros vl t a c tp vs Hc Hpw Hn Hvec Hh Hel IH Hw [|f] ps hs Hf Hps Hhs; [lia|]. inversion Hw; subst.
    cbn [places handles resolve vdepth] in *. rewrite Hpw, Hn in Hps, Hhs.
    destruct (vl_offs vl ltac:(lia)) as (V1 & V2 & V3 & V4 & V5 & V6 & V7 & V8 & V9).
    assert (Hsz : size_of E (TVec vl t) = 3 * pW) by reflexivity.
    destruct ((size_of E t =? 0) || (N.of_nat (length vs) =? 0)) eqn:Ez.
    + inversion Hps; inversion Hhs; subst. apply goes_nil. intros Hi Hm.
      assert (Hw3 : forall off, off + pW <= 3 * pW -> read_word M' (mv a + off) = read_word M (a + off)).
      { intros off Ho. destruct (Hi a _ ltac:(left; reflexivity)) as [Hba _]. rewrite <- mv_add by exact Hba.
        apply (moved_word M M' B B' [] _ _ Hm); [lia| |intros i _; apply not_nil_covered].
        intros i Hx. exists a, (size_of E (TVec vl t)). split; [left; reflexivity|]. rewrite Hsz. lia. }
      econstructor; [rewrite Hw3 by lia; exact Hc|rewrite Hw3 by lia; exact Hpw|rewrite Hw3 by lia; exact Hn|exact Hvec|exact Logic.I|].
      apply orb_true_iff in Ez. destruct Ez as [Ez|Ez].
      * eapply (zst_elems C E HE); [exact Hel|assumption|lia].
      * destruct vs; [constructor|cbn in Ez; lia].
    + apply orb_false_iff in Ez. destruct Ez as [Ez1 Ez2].
      apply cat2_inv in Hps. destruct Hps as (x & y & Hx & Hy & ->). inversion Hx; subst x; clear Hx.
      apply cat2_inv in Hhs. destruct Hhs as (x & y' & Hx & Hy' & ->). inversion Hx; subst x; clear Hx.
      rewrite Nat2N.id in Hy, Hy'. cbn [app] in *.
      set (n := N.of_nat (length vs)) in *.
      destruct (refine_block tp (size_of E t * n) (elem_ranges (size_of E t) (length vs) tp) y) as (R1 & R2 & R3 & R4 & R5).
      { intros st k Hin. apply elem_ranges_in in Hin. fold n in Hin. lia. }
      { apply elem_ranges_sep. }
      eapply (goes_two _ [(a, size_of E (TVec vl t))] ((tp, size_of E t * n) :: y) [a + ptr_off vl] y'
        (B <= a /\ read_word M' (mv a + ptr_off vl) = Some (mv tp) /\
         read_word M' (mv a + cap_off vl) = Some c /\ read_word M' (mv a + len_off vl) = Some n)
        (B <= tp /\ mv tp + size_of E t * n <= umod /\ repr_elems E any_header M' t (mv tp) vs)).
      * apply Permutation_refl.
      * split.
        -- intros p [<-|[]]. exists a, (size_of E (TVec vl t)). split; [left; reflexivity|]. rewrite Hsz. lia.
        -- intros _. split; [repeat constructor|]. intros Hi Hm Hp. destruct (Hi a _ ltac:(left; reflexivity)) as [Hba _].
           assert (Hw3 : forall off, off + pW <= 3 * pW -> disjoint off pW (ptr_off vl) pW -> read_word M' (mv a + off) = read_word M (a + off)).
           { intros off Ho Hd. rewrite <- mv_add by exact Hba. eapply (moved_word M M' B B' _ _ _ Hm); [lia| |].
             - intros i Hx. exists a, (size_of E (TVec vl t)). split; [left; reflexivity|]. rewrite Hsz. lia.
             - intros i Hx (p & [<-|[]] & Hy1). unfold disjoint in Hd. lia. }
           ands; [exact Hba| | |].
           ++ destruct (Hp (a + ptr_off vl) ltac:(left; reflexivity)) as (x & Hx & Hx'). rewrite Hpw in Hx. inversion Hx; subst.
              rewrite mv_add in Hx' by exact Hba. exact Hx'.
           ++ rewrite Hw3; [exact Hc|lia|unfold disjoint in *; lia].
           ++ rewrite Hw3; [exact Hn|lia|unfold disjoint in *; lia].
      * destruct (IH ltac:(assumption) f y y' ltac:(lia) Hy Hy') as [W G].
        split; [apply R3; exact W|]. intros Hs. destruct (G (R2 Hs)) as [G1 G2]. split; [exact G1|]. intros Hi Hm Hp.
        destruct (Hi tp (size_of E t * n) ltac:(left; reflexivity)) as [Hb Hu]. ands; auto.
        apply G2; auto. apply R5; auto. intros st k Hin. apply Hi. right; exact Hin.
      * intros (A1 & A2 & A3 & A4) (B1 & B2 & B3). econstructor; [exact A3|exact A2|exact A4| |exact Logic.I|exact B3].
        destruct Hvec as (E1 & E2 & E3 & E4). unfold vec_ok. ands; auto.
        apply mv_ref; [apply (wf_good C E HE); assumption|exact E1|exact B1|]. fold (size_of E t). lia.
  - (* string *)
    intros vl a c tp bs Hc Hpw Hn Hvec Hh Hel Hw [|f] ps hs Hf Hps Hhs; [lia|].
    cbn [places handles resolve vdepth] in *. rewrite Hn in Hhs. rewrite Hpw, Hn in Hps.
    destruct (vl_offs vl ltac:(lia)) as (V1 & V2 & V3 & V4 & V5 & V6 & V7 & V8 & V9).
    assert (Hsz : size_of E (TString vl) = 3 * pW) by reflexivity.
    destruct (N.eqb_spec (N.of_nat (length bs)) 0) as [Ez|Ez].
    + inversion Hps; inversion Hhs; subst. apply goes_nil. intros Hi Hm.
      assert (Hw3 : forall off, off + pW <= 3 * pW -> read_word M' (mv a + off) = read_word M (a + off)).
      { intros off Ho. destruct (Hi a _ ltac:(left; reflexivity)) as [Hba _]. rewrite <- mv_add by exact Hba.
        apply (moved_word M M' B B' [] _ _ Hm); [lia| |intros i _; apply not_nil_covered].
        intros i Hx. exists a, (size_of E (TString vl)). split; [left; reflexivity|]. rewrite Hsz. lia. }
      econstructor; [rewrite Hw3 by lia; exact Hc|rewrite Hw3 by lia; exact Hpw|rewrite Hw3 by lia; exact Hn|exact Hvec|exact Logic.I|].
      destruct bs; [reflexivity|cbn in Ez; lia].
    + inversion Hps; inversion Hhs; subst. set (n := N.of_nat (length bs)) in *.
      change [a + ptr_off vl] with ([a + ptr_off vl] ++ []).
      eapply (goes_two _ [(a, size_of E (TString vl))] [(tp, n)] [a + ptr_off vl] []
        (B <= a /\ read_word M' (mv a + ptr_off vl) = Some (mv tp) /\
         read_word M' (mv a + cap_off vl) = Some c /\ read_word M' (mv a + len_off vl) = Some n)
        (B <= tp /\ mv tp + n <= umod /\ read_bytes M' (mv tp) (length bs) = Some bs)).
      * apply Permutation_refl.
      * split.
        -- intros p [<-|[]]. exists a, (size_of E (TString vl)). split; [left; reflexivity|]. rewrite Hsz. lia.
        -- intros _. split; [repeat constructor|]. intros Hi Hm Hp. destruct (Hi a _ ltac:(left; reflexivity)) as [Hba _].
           assert (Hw3 : forall off, off + pW <= 3 * pW -> disjoint off pW (ptr_off vl) pW -> read_word M' (mv a + off) = read_word M (a + off)).
           { intros off Ho Hd. rewrite <- mv_add by exact Hba. eapply (moved_word M M' B B' _ _ _ Hm); [lia| |].
             - intros i Hx. exists a, (size_of E (TString vl)). split; [left; reflexivity|]. rewrite Hsz. lia.
             - intros i Hx (p & [<-|[]] & Hy1). unfold disjoint in Hd. lia. }
           ands; [exact Hba| | |].
           ++ destruct (Hp (a + ptr_off vl) ltac:(left; reflexivity)) as (x & Hx & Hx'). rewrite Hpw in Hx. inversion Hx; subst.
              rewrite mv_add in Hx' by exact Hba. exact Hx'.
           ++ rewrite Hw3; [exact Hc|lia|unfold disjoint in *; lia].
           ++ rewrite Hw3; [exact Hn|lia|unfold disjoint in *; lia].
      * apply goes_nil. intros Hi Hm. destruct (Hi tp n ltac:(left; reflexivity)) as [Hb Hu]. ands; auto.
        rewrite <- Hel. apply (moved_bytes M M' B B' [] _ _ _ Hm Hb); [|intros i _; apply not_nil_covered].
        intros i Hx. exists tp, n. split; [left; reflexivity|lia].
      * intros (A1 & A2 & A3 & A4) (B1 & B2 & B3). econstructor; [exact A3|exact A2|exact A4| |exact Logic.I|exact B3].
        destruct Hvec as (E1 & E2 & E3 & E4). unfold vec_ok. ands; auto.
        apply mv_ref; [apply (u8_good C)|exact E1|exact B1|]. cbn [u8_layout l_size]. fold n. rewrite N.mul_1_l. exact B2.
  - (* array *)
    intros t n a vs -> Hel IH Hw [|f] ps hs Hf Hps Hhs; [lia|]. inversion Hw; subst.
    cbn [places handles resolve vdepth] in *. rewrite Nat2N.id in Hps, Hhs.
    destruct (refine_block a (size_of E t * N.of_nat (length vs)) (elem_ranges (size_of E t) (length vs) a) ps) as (R1 & R2 & R3 & R4 & R5).
    { intros st k Hin. apply elem_ranges_in in Hin. lia. }
    { apply elem_ranges_sep. }
    destruct (IH ltac:(assumption) f ps hs ltac:(lia) Hps Hhs) as [W G].
    change (size_of E (TArray t (N.of_nat (length vs)))) with (size_of E t * N.of_nat (length vs)).
    split; [apply R3; exact W|]. intros Hs. destruct (G (R2 Hs)) as [G1 G2]. split; [exact G1|]. intros Hi Hm Hp.
    destruct (Hi a (size_of E t * N.of_nat (length vs)) ltac:(left; reflexivity)) as [Hb Hu].
    constructor; [reflexivity|]. apply G2; auto. apply R5; auto. intros st k Hin. apply Hi. right; exact Hin.
  - (* struct *)
    intros l fs a vs Hfs IH Hw [|f] ps hs Hf Hps Hhs; [lia|]. inversion Hw; subst.
    cbn [places handles resolve vdepth] in *.
    destruct (refine_block a (l_size l) (field_ranges fs a) ps) as (R1 & R2 & R3 & R4 & R5).
    { intros st k Hin. eapply field_ranges_in in Hin; [exact Hin|eassumption]. }
    { eapply field_ranges_sep; eassumption. }
    destruct (IH ltac:(assumption) f ps hs ltac:(lia) Hps Hhs) as [W G].
    change (size_of E (TStruct l fs)) with (l_size l).
    split; [apply R3; exact W|]. intros Hs. destruct (G (R2 Hs)) as [G1 G2]. split; [exact G1|]. intros Hi Hm Hp.
    destruct (Hi a (l_size l) ltac:(left; reflexivity)) as [Hb Hu].
    constructor. apply G2; auto. apply R5; auto. intros st k Hin. apply Hi. right; exact Hin.
  - (* enum *)
    intros l d vss a kk fs vs Hd Hkk Hfs IH Hw [|f] ps hs Hf Hps Hhs; [lia|].
    inversion Hw as [| | | | | |? ? ? Hl Hdo Hfo Hall|]; subst.
    cbn [places handles resolve vdepth] in *. rewrite Hd, Hkk in Hps, Hhs.
    destruct (refine_block a (l_size l) (field_ranges fs a) ps) as (R1 & R2 & R3 & R4 & R5).
    { intros st k Hin. eapply field_ranges_in in Hin; [exact Hin|eauto]. }
    { eapply field_ranges_sep; eauto. }
    destruct (IH ltac:(eauto) f ps hs ltac:(lia) Hps Hhs) as [W G].
    change (size_of E (TEnum l d vss)) with (l_size l).
    split; [apply R3; exact W|]. intros Hs. destruct (G (R2 Hs)) as [G1 G2]. split; [exact G1|]. intros Hi Hm Hp.
    destruct (Hi a (l_size l) ltac:(left; reflexivity)) as [Hb Hu].
    assert (Hfields : repr_fields E any_header M' fs (mv a) vs).
    { apply G2; auto. apply R5; auto. intros st k Hin. apply Hi. right; exact Hin. }
    assert (Hint : forall off sz, off + sz <= l_size l -> apart E off sz fs -> read_int M' (mv a + off) sz = read_int M (a + off) sz).
    { intros off sz Ho Hap. rewrite <- mv_add by exact Hb. apply (moved_int M M' B B' hs _ _ _ Hm); [lia| |].
      - intros i Hx. exists a, (l_size l). split; [left; reflexivity|lia].
      - intros i Hx Hc. apply (within_covered _ _ _ W) in Hc. destruct Hc as (st & n & Hin & Hin2). apply in_app_or in Hin.
        destruct Hin as [Hin|Hin].
        + apply in_map_iff in Hin. destruct Hin as ([o u] & Heq & Hin). inversion Heq; subst. specialize (Hap o u Hin).
          cbn [fst snd] in *. unfold disjoint in Hap. lia.
        + inversion Hs as [|? ? S1 S2]; subst. rewrite Forall_forall in S1. specialize (S1 _ Hin). unfold disjoint in S1. cbn [fst snd] in S1. lia. }
    econstructor; [|exact Hkk|exact Hfields].
    inversion Hdo as [k|off sz vals Ho Hap|off sz df ns gs o t off' Ho Hns Hap Hdf Hin Hoff Hnv]; subst; cbn [read_discr] in *.
    + exact Hd.
    + rewrite Hint by eauto. exact Hd.
    + destruct (Nat.eq_dec kk df) as [->|Hne].
      * rewrite Hdf in Hkk. inversion Hkk; subst gs.
        destruct (fields_in E _ _ _ _ _ _ _ Hfields Hin) as [v' Hv'].
        destruct (niche_read E _ _ _ _ _ _ Hnv _ _ Hv') as (n & Hn & HQ). rewrite N.add_assoc, Hn.
        rewrite (assoc_none _ _ HQ). reflexivity.
      * rewrite Hint by eauto. exact Hd.
  - (* named *)
    intros id d a v Hid Hv IH Hw [|f] ps hs Hf Hps Hhs; [lia|].
    destruct (resolve_named E HE id d Hid) as [Q1 Q2].
    assert (Hsz : size_of E (TNamed id) = size_of E d) by (unfold size_of; rewrite (named_size E HE id d Hid); reflexivity).
    rewrite Hsz.
    destruct (IH (proj1 (HE id d Hid)) (S f) ps hs Hf) as [W G].
    { cbn [places] in *. rewrite Q1 in Hps. rewrite Q2. exact Hps. }
    { cbn [handles] in *. rewrite Q1 in Hhs. rewrite Q2. exact Hhs. }
    split; [exact W|]. intros Hs. destruct (G Hs) as [G1 G2]. split; [exact G1|]. intros Hi Hm Hp. econstructor; [exact Hid|auto].
  - intros t a Hw f ps hs Hf Hps Hhs. cbn [length places_elems handles_elems] in *. inversion Hps; inversion Hhs; subst. apply goes_nil. intros; constructor.
  - intros t a v vs Hv IH1 Hvs IH2 Hw f ps hs Hf Hps Hhs. cbn [map] in Hf. rewrite list_max_cons in Hf.
    cbn [length places_elems handles_elems elem_ranges] in *.
    apply cat2_inv in Hps. destruct Hps as (x & y & Hx & Hy & ->).
    apply cat2_inv in Hhs. destruct Hhs as (x' & y' & Hx' & Hy' & ->).
    destruct (IH1 Hw f x x' ltac:(lia) Hx Hx') as [W1 G1].
    eapply (goes_two _ ((a, size_of E t) :: x) (elem_ranges (size_of E t) (length vs) (a + size_of E t) ++ y) x' y'
      (B <= a /\ repr E any_header M' t (mv a) v)).
    + cbn [app]. constructor. rewrite !app_assoc. apply Permutation_app_tail. apply Permutation_app_comm.
    + split; [exact W1|]. intros Hs. destruct (G1 Hs) as [D1 D2]. split; [exact D1|]. intros Hi Hm Hp.
      destruct (Hi a _ ltac:(left; reflexivity)). auto.
    + exact (IH2 Hw f y y' ltac:(lia) Hy Hy').
    + intros [A1 A2] A3. constructor; [exact A2|]. rewrite <- mv_add by exact A1. exact A3.
  - intros a Hall f ps hs Hf Hps Hhs. cbn [places_fields handles_fields] in *. inversion Hps; inversion Hhs; subst. apply goes_nil. intros; constructor.
  - intros off t fs a v vs Hv IH1 Hvs IH2 Hall f ps hs Hf Hps Hhs. cbn [map] in Hf. rewrite list_max_cons in Hf.
    cbn [places_fields handles_fields field_ranges map fst snd] in *.
    apply cat2_inv in Hps. destruct Hps as (x & y & Hx & Hy & ->).
    apply cat2_inv in Hhs. destruct Hhs as (x' & y' & Hx' & Hy' & ->).
    eapply (goes_two _ ((a + off, size_of E t) :: x) (field_ranges fs a ++ y) x' y').
    + cbn [app]. constructor. fold (field_ranges fs a). rewrite !app_assoc. apply Permutation_app_tail. apply Permutation_app_comm.
    + exact (IH1 (Hall off t (or_introl eq_refl)) f x x' ltac:(lia) Hx Hx').
    + exact (IH2 (fun o u Hi => Hall o u (or_intror Hi)) f y y' ltac:(lia) Hy Hy').
    + intros A1 A2 Hb. constructor; [|exact (A2 Hb)]. rewrite <- mv_add by exact Hb. exact A1.
Qed.
End MoveRepr.

(** ** The words followed in an output are those the reference encoder has as pointers *)
Definition ptr_words (e : enc) : list N :=
  flat_map (fun x => match snd x with PPtr _ => [fst x] | PWord _ => [] end) (e_patches e).
Lemma ptr_words_then e1 e2 c :
  ptr_words (mkEnc (e_copies e1 ++ e_copies e2) (e_patches e1 ++ e_patches e2) c) = ptr_words e1 ++ ptr_words e2.
Proof. unfold ptr_words. cbn [e_patches]. apply flat_map_app. Qed.

Section Found.
Context {P : Params}.
Hypothesis C : cfg_ok.
Variable E : tenv.
Hypothesis HE : wf_env E.
Variable k : kind.
Hypothesis Hk : fixes_ptrs k = true.
Variable m M M2 : mem.
Variable B : N.
Hypothesis Hsub : forall i b, M i = Some b -> M2 i = Some b.
Notation patched := (patched M2 B).

Lemma owned_handles H t a v : repr E H m t a v ->
  forall f p cur e, (vdepth v < f)%nat ->
  encode k E m f t a p cur = Some e -> patched e -> B + e_end e <= umod ->
  repr E any_header M t (B + p) v ->
  handles E M f t (B + p) = Some (map (N.add B) (ptr_words e)).
Proof.
  intros HR. revert t a v HR.
  apply (repr_mind P E H m
    (fun t a v _ => forall f p cur e, (vdepth v < f)%nat ->
       encode k E m f t a p cur = Some e -> patched e -> B + e_end e <= umod ->
       repr E any_header M t (B + p) v ->
       handles E M f t (B + p) = Some (map (N.add B) (ptr_words e)))
    (fun t a vs _ => forall f p cur e, (list_max (map vdepth vs) < f)%nat ->
       enc_elems (encode k E m f t) (size_of E t) (length vs) a p cur = Some e -> patched e -> B + e_end e <= umod ->
       repr_elems E any_header M t (B + p) vs ->
       handles_elems (handles E M f t) (size_of E t) (length vs) (B + p) =
         Some (map (N.add B) (ptr_words e)))
    (fun fs a vs _ => forall f p cur e, (list_max (map vdepth vs) < f)%nat ->
       enc_fields (encode k E m f) fs a p cur = Some e -> patched e -> B + e_end e <= umod ->
       repr_fields E any_header M fs (B + p) vs ->
       handles_fields (handles E M f) fs (B + p) =
         Some (map (N.add B) (ptr_words e)))).
  - intros l ok a n Hr Hok [|f] p cur e Hf He Hp HB Ho; [lia|]. cbn [encode resolve] in He. inversion He; subst. reflexivity.
  - intros t a tp v Hpw Hv Hh Hrep IH [|f] p cur e Hf He Hp HB Ho; [lia|].
    cbn [encode handles resolve owned vdepth] in *.
    destruct (N.eqb_spec (size_of E t) 0); [inversion He; subst; reflexivity|].
    inversion Ho as [|? ? x ? Hx Hvx _ Hox| | | | | |]; subst.
    rewrite Hpw in He. unfold block_enc in He.
    apply then_inv in He. destruct He as (e1 & e2 & He1 & He2 & ->).
    inversion He1; subst e1; clear He1. cbn [e_end e_patches e_copies] in *.
    destruct (encode_some k E m HE H t tp v Hrep f (push_start cur (layout_of E t)) (push_end cur (layout_of E t) 1) ltac:(lia)) as (e2' & He2' & [Hend _]).
    rewrite He2 in He2'. inversion He2'; subst e2'; clear He2'.
    pose proof (push_end_ge C cur (layout_of E t) 1). pose proof (end_ge C (owned E t v) (push_end cur (layout_of E t) 1)).
    unfold size_of in n.
    assert (x = B + push_start cur (layout_of E t)).
    { eapply (patched_ptr M M2 B Hsub); [exact Hp| |lia|exact Hx]. cbn. rewrite Hk. left. reflexivity. }
    subst x. rewrite Hx. eapply cat2_some; [reflexivity| |].
    + eapply IH; [|exact He2| |lia|exact Hox]; [lia|]. intros q' w' Hin'; apply (Hp q' w'); cbn [e_patches]; apply in_or_app; right; exact Hin'.
    + unfold ptr_words. cbn [e_patches]. rewrite Hk, flat_map_app, map_app. reflexivity.
  - intros vl t a c tp vs Hc Hpw Hn Hvec Hh Hel IH [|f] p cur e Hf He Hp HB Ho; [lia|].
    cbn [encode handles resolve owned vdepth] in *.
    inversion Ho as [| |? ? ? c' x ? Hc' Hx Hn' Hv' _ Hox| | | | |]; subst.
    rewrite Hx, Hn'. rewrite Hc, Hpw, Hn in He. unfold enc_vec, block_enc in He. unfold size_of in *.
    destruct (N.eqb_spec (l_size (layout_of E t)) 0) as [H1|H1]; cbn [orb]; [inversion He; subst; reflexivity|].
    destruct (N.eqb_spec (N.of_nat (length vs)) 0) as [H2|H2]; [inversion He; subst; destruct (_ && _); reflexivity|].
    apply then_inv in He. destruct He as (e1 & e2 & He1 & He2 & ->).
    inversion He1; subst e1; clear He1. cbn [e_end e_patches e_copies] in *. rewrite Nat2N.id in *.
    assert (Hrel : exists e2', enc_elems (encode k E m f t) (l_size (layout_of E t)) (length vs) tp (push_start cur (layout_of E t))
       (push_end cur (layout_of E t) (N.of_nat (length vs))) = Some e2' /\
       e_end e2' = end_pos (push_end cur (layout_of E t) (N.of_nat (length vs))) (flat_map (owned E t) vs)).
    { destruct (encode_some k E m HE H (TVec vl t) a (VVec vs)) with (f := S f) (p := p) (cur := cur) as (e' & He' & Hcov).
      - econstructor; eassumption.
      - cbn [vdepth]. lia.
      - exists e2. split; [exact He2|].
        cbn [encode resolve] in He'. rewrite Hc, Hpw, Hn in He'. unfold enc_vec, block_enc in He'.
        rewrite (proj2 (N.eqb_neq _ _) H1), (proj2 (N.eqb_neq _ _) H2) in He'.
        apply then_inv in He'. destruct He' as (e1' & e2' & A1 & A2 & ->). inversion A1; subst e1'; clear A1.
        cbn [e_end e_patches e_copies] in *. unfold size_of in A2. rewrite Nat2N.id, He2 in A2. inversion A2; subst e2'.
        destruct Hcov as [Hcov _]. cbn [e_end owned resolve] in Hcov. unfold size_of in Hcov.
        rewrite (proj2 (N.eqb_neq _ _) H1), (proj2 (N.eqb_neq _ _) H2) in Hcov. exact Hcov. }
    destruct Hrel as (e2' & Q1 & Hend). rewrite He2 in Q1. inversion Q1; subst e2'; clear Q1.
    pose proof (push_end_ge C cur (layout_of E t) (N.of_nat (length vs))).
    pose proof (end_ge C (flat_map (owned E t) vs) (push_end cur (layout_of E t) (N.of_nat (length vs)))).
    assert (0 < l_size (layout_of E t) * N.of_nat (length vs)) by (apply N.mul_pos_pos; lia).
    assert (x = B + push_start cur (layout_of E t)).
    { rewrite <- N.add_assoc in Hx. eapply (patched_ptr M M2 B Hsub); [exact Hp| |lia|exact Hx]. cbn. rewrite Hk.
      apply in_or_app. left. apply in_or_app. right. left. reflexivity. }
    subst x. eapply cat2_some; [reflexivity| |].
    + eapply IH; [|exact He2| |lia|exact Hox]; [lia|]. intros q' w' Hin'; apply (Hp q' w'); cbn [e_patches]; apply in_or_app; right; exact Hin'.
    + unfold ptr_words. cbn [e_patches]. rewrite Hk, !flat_map_app, !map_app, <- N.add_assoc. destruct (_ && _); reflexivity.
  - intros vl a c tp bs Hc Hpw Hn Hvec Hh Hel [|f] p cur e Hf He Hp HB Ho; [lia|].
    cbn [encode handles resolve owned vdepth] in *.
    inversion Ho as [| | |? ? c' x ? Hc' Hx Hn' Hv' _ Hox| | | |]; subst.
    rewrite Hn'. rewrite Hc, Hpw, Hn in He. unfold enc_vec, block_enc in He.
    cbn [u8_layout l_size] in He. change (1 =? 0) with false in He.
    destruct (N.eqb_spec (N.of_nat (length bs)) 0) as [H2|H2]; [inversion He; subst; destruct (_ && _); reflexivity|].
    apply then_inv in He. destruct He as (e1 & e2 & He1 & He2 & ->).
    inversion He1; subst e1; clear He1. inversion He2; subst e2; clear He2. cbn [nothing e_end e_patches e_copies] in *.
    pose proof (push_end_ge C cur u8_layout (N.of_nat (length bs))) as Hge. cbn [u8_layout l_size] in Hge.
    assert (x = B + push_start cur u8_layout).
    { rewrite <- N.add_assoc in Hx. eapply (patched_ptr M M2 B Hsub); [exact Hp| |cbn [u8_layout] in *; lia|exact Hx]. cbn [e_patches]. rewrite Hk.
      apply in_or_app. left. apply in_or_app. right. left. reflexivity. }
    unfold ptr_words. cbn [e_patches]. rewrite Hk, !flat_map_app, !map_app, <- N.add_assoc. destruct (_ && _); reflexivity.
  - intros t n a vs -> Hel IH [|f] p cur e Hf He Hp HB Ho; [lia|]. cbn [encode handles resolve owned vdepth] in *.
    rewrite Nat2N.id in *. inversion Ho; subst. eapply IH; eauto. lia.
  - intros l fs a vs Hfs IH [|f] p cur e Hf He Hp HB Ho; [lia|]. cbn [vdepth] in Hf.
    cbn [encode handles resolve] in *. inversion Ho; subst. eapply IH; eauto. lia.
  - intros l d vss a kk fs vs Hd Hkk Hfs IH [|f] p cur e Hf He Hp HB Ho; [lia|]. cbn [vdepth] in Hf.
    cbn [encode handles resolve] in *. rewrite Hd, Hkk in He.
    inversion Ho as [| | | | | |? ? ? ? ? ? ? Hd' Hk' Hf'|]; subst. rewrite Hd', Hkk. rewrite Hkk in Hk'. inversion Hk'; subst.
    eapply IH; eauto. lia.
  - intros id d a v Hid Hv IH [|f] p cur e Hf He Hp HB Ho; [lia|].
    inversion Ho as [| | | | | | |? d' ? ? Hid' Hd']; subst. rewrite Hid in Hid'. inversion Hid'; subst d'.
    destruct (resolve_named E HE id d Hid) as [Q1 Q2].
    rewrite <- (IH (S f) p cur e); auto.
    + cbn [handles]. rewrite Q1, Q2. reflexivity.
    + cbn [encode] in *. rewrite Q1 in He. rewrite Q2. exact He.
  - intros t a f p cur e Hf He Hp HB Ho. cbn [length enc_elems] in He. inversion He; subst. reflexivity.
  - intros t a v vs Hv IH1 Hvs IH2 f p cur e Hf He Hp HB Ho. cbn [map] in Hf. rewrite list_max_cons in Hf.
    cbn [length enc_elems handles_elems flat_map] in *.
    apply then_inv in He. destruct He as (e1 & e2 & He1 & He2 & ->). apply patched_then in Hp. destruct Hp as [Hp1 Hp2].
    cbn [e_end] in HB. inversion Ho as [|? ? ? ? Ho1 Ho2]; subst.
    destruct (encode_some k E m HE H t a v Hv f p cur ltac:(lia)) as (e1' & He1' & [Hend1 _]).
    rewrite He1 in He1'. inversion He1'; subst e1'.
    assert (Hend2 : e_end e1 <= e_end e2).
    { destruct (encode_some k E m HE H (TArray t (N.of_nat (length vs))) (a + size_of E t) (VArray vs)) with (f := S f) (p := p + size_of E t) (cur := e_end e1) as (e' & He' & [Hc' _]).
      - constructor; [reflexivity|exact Hvs].
      - cbn [vdepth]. lia.
      - cbn [encode resolve] in He'. rewrite Nat2N.id, He2 in He'. inversion He'; subst e'. rewrite Hc'. apply (end_ge C). }
    eapply cat2_some.
    + eapply (IH1 f p cur); eauto; lia.
    + rewrite <- N.add_assoc. eapply (IH2 f (p + size_of E t) (e_end e1)); eauto; try lia. rewrite N.add_assoc. exact Ho2.
    + rewrite ptr_words_then, map_app. reflexivity.
  - intros a f p cur e Hf He Hp HB Ho. cbn [enc_fields] in He. inversion He; subst. reflexivity.
  - intros off t fs a v vs Hv IH1 Hvs IH2 f p cur e Hf He Hp HB Ho. cbn [map] in Hf. rewrite list_max_cons in Hf.
    cbn [enc_fields handles_fields owned_fields] in *.
    apply then_inv in He. destruct He as (e1 & e2 & He1 & He2 & ->). apply patched_then in Hp. destruct Hp as [Hp1 Hp2].
    cbn [e_end] in HB. inversion Ho as [|? ? ? ? ? ? Ho1 Ho2]; subst.
    destruct (encode_some k E m HE H t (a + off) v Hv f (p + off) cur ltac:(lia)) as (e1' & He1' & [Hend1 _]).
    rewrite He1 in He1'. inversion He1'; subst e1'.
    assert (Hend2 : e_end e1 <= e_end e2).
    { destruct (encode_some k E m HE H (TStruct (mkLayout 0 1) fs) a (VStruct vs)) with (f := S f) (p := p) (cur := e_end e1) as (e' & He' & [Hc' _]).
      - constructor. exact Hvs.
      - cbn [vdepth]. lia.
      - cbn [encode resolve] in He'. rewrite He2 in He'. inversion He'; subst e'. rewrite Hc'. apply (end_ge C). }
    eapply cat2_some.
    + rewrite <- N.add_assoc. eapply (IH1 f (p + off) cur); eauto; try lia. rewrite N.add_assoc. exact Ho1.
    + eapply (IH2 f p (e_end e1)); eauto; lia.
    + rewrite ptr_words_then, map_app. reflexivity.
Qed.

End Found.
