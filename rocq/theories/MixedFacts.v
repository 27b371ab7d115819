(** * MixedFacts: proofs for C79. *)
From Coq Require Import Arith.
From Verif Require Import Base Types Storage Serializer Serialize Client Spec ClientSpec ArithFacts TypeFacts SerMain SerRoot SerProps ClientFacts Build Depth
  Derive DeriveSpec DeriveFacts PropDerive Mixed.
From Coq Require Import ZifyBool ZifyNat ZifyN.
Local Open Scope N_scope.

Section Facts.
Context {P : Params} {L : Lexer}.
Variable pg : program.
Variable k : kind.
Variable m : mem.
Variable sf : nat.
Notation E := (pr_env pg).
Notation runs a ss := (run_steps k E m sf a ss).

(** ** Sequences of calls *)
Lemma runs_app s1 : forall s2 a, eqm (runs a (s1 ++ s2)) (runs a s1 ;;; runs a s2).
Proof.
  induction s1 as [|s s1 IH]; intros s2 a z; [reflexivity|]. cbn [app run_steps].
  rewrite bind_assoc. unfold bind at 1 2. destruct (run_step k E m sf a s z); try reflexivity. apply IH.
Qed.
Lemma runs_one s a : eqm (runs a [s]) (run_step k E m sf a s).
Proof. intros z. cbn [run_steps]. unfold bind, ret. destruct (run_step k E m sf a s z) as [[] ?| | | |]; reflexivity. Qed.

Lemma shift_run d s a : run_step k E m sf a (shift d s) = run_step k E m sf (a + d) s.
Proof.
  assert (Ha : forall off, addr_from_ref_offset (S := zs) k a (d + off) = addr_from_ref_offset k (a + d) off).
  { intros off. unfold addr_from_ref_offset, add_u. rewrite N.add_assoc. reflexivity. }
  destruct s; cbn [shift]; rewrite ?run_push; cbn [run_step]; rewrite ?Ha, ?N.add_assoc; reflexivity.
Qed.
Lemma shift_runs d ss : forall a, runs a (map (shift d) ss) = runs (a + d) ss.
Proof. induction ss as [|s ss IH]; intros a; [reflexivity|]. cbn [map run_steps]. rewrite shift_run, IH. reflexivity. Qed.

(** ** Proper calls *)
Lemma shift_touched d s i : touched E (shift d s) i <-> d <= i /\ touched E s (i - d).
Proof. destruct s; cbn [shift]; unfold touched; cbn [touch]; lia. Qed.

Lemma shift_ok d s sz al a size al' :
  step_ok E m sf sz al (a + d) s -> d + sz <= size -> (al | d) -> (al | al') ->
  step_ok E m sf size al' a (shift d s).
Proof.
  intros H Hs Hd Ha.
  assert (T : forall x, (x | al) -> (x | al')) by (intros x Hx; exact (N.divide_trans _ _ _ Hx Ha)).
  assert (T' : forall x off, (x | al) -> (x | off) -> (x | d + off)).
  { intros x off Hx Ho. apply N.divide_add_r; [exact (N.divide_trans _ _ _ Hx Hd)|exact Ho]. }
  inversion H; subst; cbn [shift]; constructor; auto; try lia. rewrite N.add_assoc. assumption.
Qed.
Lemma shifts_ok d ss : forall sz al a size al',
  steps_ok E m sf sz al (a + d) ss -> d + sz <= size -> (al | d) -> (al | al') ->
  steps_ok E m sf size al' a (map (shift d) ss).
Proof.
  induction ss as [|s ss IH]; intros sz al a size al' H Hs Hd Ha; [constructor|].
  inversion H; subst. cbn [map]. constructor; [eapply shift_ok; eassumption| |eapply IH; eassumption].
  intros s' i Hin T1 T2. apply in_map_iff in Hin. destruct Hin as (s0 & <- & Hin).
  apply shift_touched in T1, T2. apply (H6 s0 (i - d) Hin); tauto.
Qed.
Lemma shifts_in d ss sz al a : steps_ok E m sf sz al (a + d) ss ->
  forall s i, In s (map (shift d) ss) -> touched E s i -> d <= i /\ i < d + sz.
Proof.
  intros H s i Hin T. apply in_map_iff in Hin. destruct Hin as (s0 & <- & Hin). apply shift_touched in T. destruct T as [T1 T2].
  pose proof (touched_inside E m sf _ _ _ _ H s0 _ Hin T2). lia.
Qed.
Lemma app_ok s1 : forall s2 size al a,
  steps_ok E m sf size al a s1 -> steps_ok E m sf size al a s2 ->
  (forall s s' i, In s s1 -> In s' s2 -> touched E s i -> ~ touched E s' i) ->
  steps_ok E m sf size al a (s1 ++ s2).
Proof.
  induction s1 as [|s s1 IH]; intros s2 size al a H1 H2 H3; [exact H2|].
  inversion H1; subst. cbn [app]. constructor; auto.
  - intros s' i Hin T. apply in_app_or in Hin. destruct Hin as [Hin|Hin]; [eauto|]. apply (H3 s s' i); auto. left; auto.
  - apply IH; auto. intros s0 s' i Hin. apply H3. right; exact Hin.
Qed.

(** ** Generated code *)

(** The fields, each by what its statement calls. *)
Fixpoint for_callees (rec : ty -> N -> M zs unit) (fs : list (N * ty)) (cs : list callee) (a : N) : M zs unit :=
  match fs, cs with
  | (off, t) :: fs', c :: cs' => callee_run pg k m sf rec c t (a + off) ;;; for_callees rec fs' cs' a
  | _, _ => ret tt
  end.
Lemma exec_from rec a : forall cs fs fs1 fs2,
  fs = fs1 ++ fs2 -> map snd cs = seq (length fs1) (length fs2) ->
  exec pg k m sf rec fs a cs = for_callees rec fs2 (map fst cs) a.
Proof.
  induction cs as [|[c n] cs IH]; intros fs fs1 fs2 He Hs.
  - destruct fs2; [reflexivity|discriminate].
  - destruct fs2 as [|[off t] fs2]; [discriminate|]. cbn in Hs. injection Hs as -> Hs.
    cbn [exec for_callees map fst]. rewrite He, nth_error_app2, Nat.sub_diag by auto. cbn [nth_error].
    f_equal. rewrite <- He. rewrite (IH fs (fs1 ++ [(off, t)]) fs2); auto.
    + now rewrite <- app_assoc.
    + rewrite app_length. cbn. rewrite Nat.add_1_r. exact Hs.
Qed.
Lemma own_fields rec a : forall fs, for_callees rec fs (map (fun _ => CSerialize) fs) a = for_fields fs a rec.
Proof. induction fs as [|[off t] fs IH]; [reflexivity|]. cbn [map for_callees for_fields callee_run]. rewrite IH. reflexivity. Qed.
Lemma own_calls rec fs a : exec pg k m sf rec fs a (map (fun n => (CSerialize, n)) (seq 0 (length fs))) = for_fields fs a rec.
Proof.
  rewrite (exec_from rec a _ fs [] fs) by (auto; rewrite map_map; cbn; apply map_id).
  rewrite map_map. cbn [fst]. rewrite <- own_fields. f_equal.
  generalize 0%nat. induction fs as [|x fs IH]; intros n; [reflexivity|]. cbn [length seq map]. rewrite IH. reflexivity.
Qed.

Lemma struct_generated (LO : lexer_ok) i dfs im cs :
  i_data i = DStruct dfs -> legal_fields dfs -> derive_serialize i = Gen im ->
  Forall2 wanted (field_list dfs) cs ->
  exists ks, generated i None = Some ks /\ map snd ks = seq 0 (length (field_list dfs)) /\ map fst ks = cs.
Proof.
  intros Ed Hl H Hw. pose proof H as H0. unfold derive_serialize in H. rewrite Ed in H.
  destruct (get_ser_bound _); [|discriminate]. cbn in H.
  destruct (derive_struct dfs) as [b|] eqn:Eb; [|discriminate]. cbn in H. injection H as <-.
  destruct (derive_struct_run LO dfs b Hl Eb) as [ks [Hr [Hs Hc]]].
  exists ks. unfold generated. rewrite H0, Ed. ands; auto.
  assert (Ha : forall f, In f (field_list dfs) -> forall a, In a (f_attrs f) -> legal_attr a).
  { intros f Hf a0 Hin. destruct Hl as [Hl _]. eauto. }
  assert (Hg : forall f, In f (field_list dfs) -> forall c, wanted f c -> exists o, get_with f = Gen o /\ c = callee_of o).
  { intros f Hf c [Hu|w Hw']; [exists None|exists (Some w)]; split; auto.
    - apply get_with_unannotated; eauto.
    - apply get_with_annotated; eauto. }
  clear - Hc Hw Hg. revert Hw Hg Hc. generalize (map fst ks) as l. revert cs.
  induction (field_list dfs) as [|f r IH]; intros cs l Hw Hg Hc; inversion Hc; subst; inversion Hw; subst; [reflexivity|].
  f_equal.
  - destruct H1 as [o [Ho ->]]. destruct (Hg f (or_introl eq_refl) _ H2) as [o' [Ho' ->]]. rewrite Ho in Ho'. now injection Ho' as <-.
  - apply IH; auto. intros g Hg'. apply Hg. right. auto.
Qed.

Lemma enum_generated (LO : lexer_ok) i vs im n v :
  i_data i = DEnum vs -> legal_variants vs -> derive_serialize i = Gen im -> nth_error vs n = Some v ->
  generated i (Some n) = Some (map (fun n => (CSerialize, n)) (seq 0 (length (field_list (v_fields v))))).
Proof.
  intros Ed Hl H Hn. pose proof H as H0. apply (derive_serialize_enum i im vs Ed) in H.
  destruct (derive_enum_inv LO vs _ Hl H) as [_ Hb]. unfold generated. rewrite H0, Ed, Hn, Hb.
  apply (run_enum_body LO); [exact Hl|]. eapply nth_error_In; exact Hn.
Qed.
End Facts.

(** ** The calls are determined by the value *)
Section Unique.
Context {P : Params} {L : Lexer}.
Variable pg : program.
Variable m : mem.
Notation E := (pr_env pg).
Hypothesis LO : lexer_ok.
Hypothesis PO : program_ok pg.

Scheme makes_ind2 := Induction for makes Sort Prop
  with makes_elems_ind2 := Induction for makes_elems Sort Prop
  with makes_fields_ind2 := Induction for makes_fields Sort Prop.
Combined Scheme makes_mind from makes_ind2, makes_elems_ind2, makes_fields_ind2.

Lemma wanted_unique i l fs dfs id cs cs' : impl_for pg id = IDerived i -> E id = Some (TStruct l fs) ->
  i_data i = DStruct dfs -> Forall2 wanted (field_list dfs) cs -> Forall2 wanted (field_list dfs) cs' -> cs = cs'.
Proof.
  intros H1 H2 H3 H4 H5. pose proof (PO id _ H2) as Pk. rewrite H1 in Pk. inversion Pk; subst.
  assert (dfs0 = dfs) by congruence. subst.
  destruct (struct_generated LO i dfs im cs) as (ks & A1 & A2 & A3); auto.
  destruct (struct_generated LO i dfs im cs') as (ks' & B1 & B2 & B3); auto. congruence.
Qed.

Lemma makes_unique :
  (forall t a ss, makes pg m t a ss -> forall ss', makes pg m t a ss' -> ss = ss') /\
  (forall t n off a ss, makes_elems pg m t n off a ss -> forall ss', makes_elems pg m t n off a ss' -> ss = ss') /\
  (forall fs cs a ss, makes_fields pg m fs cs a ss -> forall ss', makes_fields pg m fs cs a ss' -> ss = ss').
Proof.
  apply (makes_mind P pg m
    (fun t a ss _ => forall ss', makes pg m t a ss' -> ss = ss')
    (fun t n off a ss _ => forall ss', makes_elems pg m t n off a ss' -> ss = ss')
    (fun fs cs a ss _ => forall ss', makes_fields pg m fs cs a ss' -> ss = ss')); intros;
    match goal with
    | H : makes _ _ _ _ ?y |- _ = ?y => inversion H; subst; clear H
    | H : makes_elems _ _ _ _ _ _ ?y |- _ = ?y => inversion H; subst; clear H
    | H : makes_fields _ _ _ _ _ ?y |- _ = ?y => inversion H; subst; clear H
    end; try reflexivity; try congruence.
  all: repeat match goal with
    | H1 : read_word ?m ?a = Some ?x, H2 : read_word ?m ?a = Some ?y |- _ => assert (x = y) by congruence; subst; clear H2
    end.
  all: repeat match goal with
    | H1 : ?x = Some _, H2 : ?x = Some _ |- _ => rewrite H1 in H2; injection H2 as <-; subst
    | H1 : ?x = Some _, H2 : ?x = Some _ |- _ => rewrite H1 in H2; injection H2 as -> ->; subst
    | H1 : ?x = Some _, H2 : ?x = Some _ |- _ => rewrite H1 in H2; injection H2 as -> -> ->; subst
    | H1 : impl_for _ ?x = IDerived _, H2 : impl_for _ ?x = IDerived _ |- _ => rewrite H1 in H2; injection H2 as ->; subst
    | H1 : i_data ?x = DStruct _, H2 : i_data ?x = DStruct _ |- _ => rewrite H1 in H2; injection H2 as ->; subst
    | H1 : Forall2 wanted ?x ?y, H2 : Forall2 wanted ?x ?z |- _ =>
        assert (y = z) by (eapply wanted_unique; eassumption); subst; clear H2
    end.
  all: repeat match goal with
    | IH : forall ss', makes _ _ ?t ?a ss' -> ?x = ss', H : makes _ _ ?t ?a _ |- _ => apply IH in H; subst
    | IH : forall ss', makes_elems _ _ ?t ?n ?o ?a ss' -> ?x = ss', H : makes_elems _ _ ?t ?n ?o ?a _ |- _ => apply IH in H; subst
    | IH : forall ss', makes_fields _ _ ?t ?a ?b ss' -> ?x = ss', H : makes_fields _ _ ?t ?a ?b _ |- _ => apply IH in H; subst
    end; try reflexivity.
Qed.
End Unique.

Section Main.
Context {P : Params} {L : Lexer}.
Variable pg : program.
Variable k : kind.
Variable m : mem.
Variable sf : nat.
Notation E := (pr_env pg).
Notation runs a ss := (run_steps k E m sf a ss).
Hypothesis C : cfg_ok.
Hypothesis HE : wf_env E.

Lemma addr_ref {A} a off (f : addr -> M zs A) z :
  a + off < umod -> bind (addr_from_ref_offset k a off) f z = f (addr_of k (a + off)) z.
Proof. apply (addr_bind k). Qed.
Lemma addr_ref0 {A} a (f : addr -> M zs A) z : bind (addr_from_ref k a) f z = f (addr_of k a) z.
Proof. unfold addr_from_ref, addr_of, bind. destruct (tracking k); reflexivity. Qed.

(** ** Headers of Vec and String *)
Lemma over_run a off l data z : a + off < umod ->
  run_step k E m sf a (SOver off l data) z = overwrite_with k (overwrite k (addr_of k (a + off)) l data) z.
Proof.
  intros H. cbn [run_step]. unfold overwrite_with. destruct k eqn:Ek; try reflexivity. rewrite <- Ek in *. apply addr_ref. exact H.
Qed.

Lemma two_words_good : pW <= MVA -> good_layout two_words_layout.
Proof.
  intros H. pose proof (imax_big (c_machine C)). pose proof (pW_vals (c_machine C)).
  unfold good_layout, two_words_layout; cbn [l_size l_align]. ands; try lia.
  - apply pW_pow2, (c_machine C).
  - apply N.divide_mul_r, N.divide_refl.
Qed.

Lemma two_overs a o1 l1 d1 o2 l2 d2 z : overwrite_with k = (fun f => f) -> a + o1 < umod -> a + o2 < umod ->
  (ad <- addr_from_ref_offset k a o1 ;; overwrite k ad l1 d1 ;;;
   ad <- addr_from_ref_offset k a o2 ;; overwrite k ad l2 d2) z = runs a [SOver o1 l1 d1; SOver o2 l2 d2] z.
Proof.
  intros HO H1 H2. rewrite addr_ref by exact H1. cbv beta. cbn [run_steps]. unfold bind at 1 3. rewrite over_run, HO by exact H1.
  destruct (overwrite k (addr_of k (a + o1)) l1 d1 z) as [[] z'| | | |]; try reflexivity.
  rewrite addr_ref by exact H2. unfold bind. rewrite over_run, HO by exact H2.
  destruct (overwrite k (addr_of k (a + o2)) l2 d2 z') as [[] z''| | | |]; reflexivity.
Qed.
Lemma header_run vl dangle cap len a :
  dangle <> 0 -> a + 3 * pW <= umod -> read_word m (a + cap_off vl) = Some cap ->
  eqm (overwrite_with k (
      cap <- load_word m (a + cap_off vl) ;;
      if negb (cap =? len) then
        if len =? 0 then (vo <- const_or (vec_offsets vl dangle) ;; overwrite_empty k vo dangle a)
        else (vo <- const_or (vec_offsets vl dangle) ;;
              cap_addr <- addr_from_ref_offset k a (vo_cap vo) ;;
              overwrite k cap_addr usize_layout (word_src len))
      else ret tt)) (runs a (header_calls vl dangle cap len)).
Proof.
  intros Hd Ha Hc z. pose proof (pW_vals (c_machine C)) as HW. destruct (vl_offs vl ltac:(lia)) as (V1 & V2 & V3 & _).
  assert (Hw : pW <> 0) by lia.
  unfold header_calls. destruct k eqn:Ek.
  1-3: destruct (cap =? len); [reflexivity|]; destruct (len =? 0); [|reflexivity]; destruct vl; reflexivity.
  rewrite <- Ek. cbn [overwrite_with]. assert (HO : overwrite_with k = fun f => f) by (rewrite Ek; reflexivity).
  rewrite HO. unfold bind at 1. rewrite (load_ok m _ _ z Hc).
  destruct (cap =? len); [reflexivity|]. cbn [negb].
  destruct (len =? 0).
  - rewrite (vec_offsets_ok vl dangle Hd). unfold const_or. unfold bind at 1, ret at 1. unfold overwrite_empty; cbn [vo_cap vo_ptr].
    unfold cap_off, ptr_off in *.
    destruct vl; cbn [cap_ix ptr_ix emptied] in *; unfold cap_off, ptr_off; cbn [cap_ix ptr_ix];
    repeat match goal with |- context [?x =? ?y] => destruct (N.eqb_spec x y); [try (exfalso; lia)|try (exfalso; lia)] end; cbn [andb].
    all: try (rewrite (runs_one pg k m sf _ a z), over_run by lia; rewrite HO;
              first [rewrite addr_ref0, N.add_0_r; reflexivity | apply addr_ref; lia]).
    all: apply two_overs; [exact HO|lia|lia].
  - rewrite (vec_offsets_ok vl dangle Hd). unfold const_or. unfold bind at 1, ret at 1. cbn [vo_cap].
    rewrite (runs_one pg k m sf _ a z), over_run by lia. rewrite HO. apply addr_ref. lia.
Qed.

Lemma usize_step a off data : pW <= MVA -> off + pW <= 3 * pW -> (pW | off) ->
  step_ok E m sf (3 * pW) pW a (SOver off usize_layout data).
Proof.
  intros H Ho Hd. pose proof (pW_vals (c_machine C)). apply OK_over; auto; cbn [usize_layout l_size l_align]; try lia.
  - apply (usize_good C H).
  - apply N.divide_refl.
Qed.
Lemma header_ok vl dangle cap len a : pW <= MVA ->
  steps_ok E m sf (3 * pW) pW a (header_calls vl dangle cap len) /\
  (len <> 0 -> forall s i, In s (header_calls vl dangle cap len) -> touched E s i -> cap_off vl <= i /\ i < cap_off vl + pW).
Proof.
  intros H. pose proof (pW_vals (c_machine C)) as HW. destruct (vl_offs vl ltac:(lia)) as (V1 & V2 & _ & V4 & _ & _ & V7 & V8 & _).
  assert (One : forall s, step_ok E m sf (3 * pW) pW a s -> steps_ok E m sf (3 * pW) pW a [s]).
  { intros s Hs. constructor; [exact Hs|intros s' i []|constructor]. }
  unfold header_calls. destruct (cap =? len); [split; [constructor|intros _ s i []]|].
  destruct (len =? 0) eqn:E0.
  - split; [|apply N.eqb_eq in E0; intros HN; contradiction].
    assert (Two : forall off data, off + 2 * pW <= 3 * pW -> (pW | off) -> steps_ok E m sf (3 * pW) pW a [SOver off two_words_layout data]).
    { intros off data Ho Hd. apply One. apply OK_over; auto; cbn [two_words_layout l_size l_align]; try lia.
      - exact (two_words_good H).
      - apply N.divide_refl. }
    assert (D2 : disjoint (cap_off vl) pW (ptr_off vl) pW) by exact V4. unfold disjoint in D2.
    destruct vl; cbn [emptied]; try (apply Two; [lia|first [apply N.divide_0_r|apply N.divide_refl]]).
    all: constructor; [apply usize_step; auto| |apply One; apply usize_step; auto].
    all: intros s' i [<-|[]]; unfold touched; cbn [touch usize_layout l_size]; lia.
  - split; [apply One, usize_step; auto|]. intros _ s i [<-|[]]. unfold touched. cbn [touch usize_layout l_size]. auto.
Qed.

(** ** Every value makes proper calls *)
Hypothesis LO : lexer_ok.
Hypothesis PO : program_ok pg.
Hypothesis WB : well_behaved pg m sf.
Notation H := any_header.

Definition fields_goal (fs : list (N * ty)) (a : N) (vs : list val) : Prop :=
  forall l cs, fields_ok E l fs -> good_layout l -> (forall o t, In (o, t) fs -> wf_ty E t) -> a + l_size l <= umod ->
  length cs = length fs ->
  (forall n w off t, nth_error cs n = Some (CWith w) -> nth_error fs n = Some (off, t) -> proxied pg w t) ->
  exists ss, makes_fields pg m fs cs a ss /\ steps_ok E m sf (l_size l) (l_align l) a ss /\
    (forall s i, In s ss -> touched E s i -> exists off t, In (off, t) fs /\ off <= i /\ i < off + size_of E t) /\
    (forall f, (list_max (map vdepth vs) < f)%nat -> eqm (for_callees pg k m sf (mx_data pg k m sf f) fs cs a) (runs a ss)).
Definition ty_goal (t : ty) (a : N) (v : val) : Prop :=
  exists ss, makes pg m t a ss /\ steps_ok E m sf (size_of E t) (align_of E t) a ss /\
    (forall f, (vdepth v < f)%nat -> eqm (mx_data pg k m sf f t a) (runs a ss)).
Definition parts (t : ty) (a : N) (v : val) : Prop :=
  match t with
  | TStruct l fs => exists vs, v = VStruct vs /\ fields_goal fs a vs /\ length vs = length fs
  | TEnum l d vss => exists j fs vs, v = VEnum j vs /\ read_discr m a d = Some j /\ nth_error vss j = Some fs /\ fields_goal fs a vs
  | _ => True
  end.
Definition elems_goal (t : ty) (a : N) (vs : list val) : Prop :=
  wf_ty E t -> forall b off, a = b + off -> (align_of E t | off) ->
  b + off + size_of E t * N.of_nat (length vs) <= umod ->
  exists ss, makes_elems pg m t (length vs) off b ss /\
    steps_ok E m sf (off + size_of E t * N.of_nat (length vs)) (align_of E t) b ss /\
    (forall s i, In s ss -> touched E s i -> off <= i) /\
    (forall f, (list_max (map vdepth vs) < f)%nat -> eqm (for_elems (length vs) a (size_of E t) (mx_data pg k m sf f t)) (runs b ss)).

Lemma own_proxies {A} (fs : list A) n w : nth_error (map (fun _ => CSerialize) fs) n = Some (CWith w) -> False.
Proof. revert n. induction fs as [|x fs IH]; intros [|n] H0; cbn in H0; try discriminate. eauto. Qed.

Lemma pick_callees (l : list field) : (forall f, In f l -> exists c, wanted f c) -> exists cs, Forall2 wanted l cs.
Proof.
  induction l as [|f l IH]; intros H0; [exists []; constructor|].
  destruct (H0 f (or_introl eq_refl)) as [c Hc]. destruct (IH (fun g Hg => H0 g (or_intror Hg))) as [cs Hcs].
  exists (c :: cs). constructor; auto.
Qed.

Lemma main :
  (forall t a v, repr E H m t a v -> wf_ty E t -> a + size_of E t <= umod -> ty_goal t a v /\ parts t a v) /\
  (forall t a vs, repr_elems E H m t a vs -> elems_goal t a vs) /\
  (forall fs a vs, repr_fields E H m fs a vs -> fields_goal fs a vs /\ length vs = length fs).
Proof.
  pose proof (pW_vals (c_machine C)) as HW.
  apply (repr_mut P E H m
    (fun t a v => wf_ty E t -> a + size_of E t <= umod -> ty_goal t a v /\ parts t a v)
    elems_goal (fun fs a vs => fields_goal fs a vs /\ length vs = length fs)).
  - (* primitives *)
    intros l ok a n H1 H2 Hw Ha. split; [|exact Logic.I]. exists []. ands; [constructor|constructor|].
    intros [|f] Hf; [lia|]. apply eqm_refl.
  - (* Box *)
    intros t a p v H1 H2 H3 H4 IH Hw Ha. split; [|exact Logic.I].
    inversion Hw as [|t' Ht HP| | | | | |]; subst.
    destruct H2 as (Hp0 & Hpa & Hpe). fold (size_of E t) in Hpe.
    destruct (N.eq_dec (size_of E t) 0) as [Z|NZ].
    + exists []. ands; [apply K_box_zst; exact Z|constructor|].
      intros [|f] Hf; [lia|]. cbn [mx_data]. unfold ser_box. rewrite Z. apply eqm_refl.
    + destruct (IH Ht ltac:(lia)) as [(ss & K1 & K2 & K3) _].
      exists [SPush 0 (layout_of E t) p 1 ss]. ands.
      * apply K_box; assumption.
      * constructor; [|intros s' i []|constructor].
        apply OK_push; try lia.
        -- unfold size_of, layout_of, usize_layout. cbn [l_size]. lia.
        -- apply N.divide_0_r.
        -- apply N.divide_refl.
        -- pose proof (wf_good C E HE t Ht) as G. unfold slice_ok. fold (size_of E t). destruct G as (G1 & G2 & G3 & G4).
           fold (size_of E t) in G3. ands; auto; try lia. unfold good_layout. auto.
        -- rewrite N.mul_1_r. exact K2.
      * intros [|f] Hf; [lia|]. cbn [mx_data]. unfold ser_box. apply N.eqb_neq in NZ. rewrite NZ. apply N.eqb_neq in NZ.
        intros z. rewrite runs_one, run_push. rewrite addr_ref0, addr_ref by (cbn [size_of layout_of usize_layout l_size] in Ha; unfold size_of in Ha; cbn [layout_of usize_layout l_size] in Ha; lia).
        rewrite N.add_0_r. unfold bind at 1. rewrite (load_ok m _ _ z H1).
        unfold push_and_process. apply eqm_bind; [|intros; apply eqm_refl]. apply eqm_pps. apply K3. cbn [vdepth] in Hf. lia.
  - (* Vec *)
    intros vl t a c p vs H1 H2 H3 H4 H5 H6 IH Hw Ha. split; [|exact Logic.I].
    inversion Hw as [| |vl' t' Ht HP| | | | |]; subst.
    destruct H4 as ((Hp0 & Hpa & Hpe) & Hc1 & Hc2 & Hc3). fold (size_of E t) in *.
    assert (Ha3 : a + 3 * pW <= umod) by exact Ha.
    assert (Ga : align_of E t <> 0).
    { pose proof (wf_good C E HE t Ht) as (G1 & _). apply pow2_pos in G1. unfold align_of. lia. }
    destruct (vl_offs vl ltac:(lia)) as (V1 & V2 & V3 & V4 & V5 & V6 & V7 & V8 & V9).
    destruct (N.eq_dec (size_of E t) 0) as [Z|NZ].
    + exists []. ands; [apply K_vec_zst; exact Z|constructor|].
      intros [|f] Hf; [lia|]. cbn [mx_data]. unfold ser_vec. rewrite Z. apply eqm_refl.
    + destruct (header_ok vl (align_of E t) c (N.of_nat (length vs)) a HP) as [HO1 HO2].
      destruct (N.eq_dec (N.of_nat (length vs)) 0) as [L0|L0].
      * exists (header_calls vl (align_of E t) c 0). rewrite L0 in *. ands.
        -- apply K_vec_empty; assumption.
        -- exact HO1.
        -- intros [|f] Hf; [lia|]. cbn [mx_data]. unfold ser_vec. apply N.eqb_neq in NZ. rewrite NZ.
           intros z. unfold bind at 1. rewrite (load_ok m _ _ z H3). cbn [N.eqb]. rewrite <- (header_run vl (align_of E t) c 0 a Ga Ha3 H1). reflexivity.
      * destruct (IH Ht p 0 ltac:(lia) ltac:(apply N.divide_0_r) ltac:(lia)) as (ss & K1 & K2 & K3 & K4).
        rewrite N.add_0_l in K2.
        exists (header_calls vl (align_of E t) c (N.of_nat (length vs)) ++ [SPush (ptr_off vl) (layout_of E t) p (N.of_nat (length vs)) ss]). ands.
        -- apply K_vec; auto. rewrite Nat2N.id. exact K1.
        -- change (size_of E (TVec vl t)) with (3 * pW). change (align_of E (TVec vl t)) with pW. apply app_ok.
           ++ exact HO1.
           ++ constructor; [|intros s' i []|constructor]. apply OK_push; auto.
              ** apply N.divide_refl.
              ** pose proof (wf_good C E HE t Ht) as G. unfold slice_ok. fold (size_of E t). ands; auto; try lia.
                 rewrite (proj2 (N.eqb_neq _ _) NZ) in Hc2. nia.
           ++ intros s s' i Hin [<-|[]] T1 T2. pose proof (HO2 L0 s i Hin T1). unfold touched in T2. cbn [touch] in T2. unfold disjoint in *. lia.
        -- intros [|f] Hf; [lia|]. cbn [mx_data]. unfold ser_vec. apply N.eqb_neq in NZ. rewrite NZ. apply N.eqb_neq in NZ.
           intros z. unfold bind at 1. rewrite (load_ok m _ _ z H3). rewrite (proj2 (N.eqb_neq _ _) L0).
           rewrite runs_app. pose proof (header_run vl (align_of E t) c (N.of_nat (length vs)) a Ga Ha3 H1) as HR.
           rewrite (proj2 (N.eqb_neq _ _) L0) in HR. revert z. apply eqm_bind; [exact HR|]. intros _ z. rewrite runs_one, run_push.
           rewrite (vec_offsets_ok vl (align_of E t) Ga). unfold const_or. unfold bind at 1, ret at 1. cbn [vo_ptr].
           rewrite !addr_ref by lia. unfold bind at 1. rewrite (load_ok m _ _ z H2).
           apply eqm_bind; [|intros; apply eqm_refl]. apply eqm_pps. rewrite Nat2N.id. apply K4. cbn [vdepth] in Hf. lia.
  - (* String *)
    intros vl a c p bs H1 H2 H3 H4 H5 H6 Hw Ha. split; [|exact Logic.I].
    inversion Hw as [| | |vl' HP| | | |]; subst.
    destruct H4 as ((Hp0 & Hpa & Hpe) & Hc1 & Hc2 & Hc3). cbn [u8_layout l_size l_align] in *.
    assert (Ha3 : a + 3 * pW <= umod) by exact Ha. assert (G1 : 1 <> 0) by lia.
    destruct (vl_offs vl ltac:(lia)) as (V1 & V2 & V3 & V4 & V5 & V6 & V7 & V8 & V9).
    destruct (header_ok vl 1 c (N.of_nat (length bs)) a HP) as [HO1 HO2].
    destruct (N.eq_dec (N.of_nat (length bs)) 0) as [L0|L0].
    + exists (header_calls vl 1 c 0). rewrite L0 in *. ands.
      * apply K_string_empty; assumption.
      * exact HO1.
      * intros [|f] Hf; [lia|]. cbn [mx_data]. unfold ser_string.
        intros z. unfold bind at 1. rewrite (load_ok m _ _ z H3). cbn [N.eqb]. rewrite <- (header_run vl 1 c 0 a G1 Ha3 H1). reflexivity.
    + exists (header_calls vl 1 c (N.of_nat (length bs)) ++ [SPushPlain (ptr_off vl) u8_layout p (N.of_nat (length bs))]). ands.
      * apply K_string; auto.
      * change (size_of E (TString vl)) with (3 * pW). change (align_of E (TString vl)) with pW. apply app_ok.
        -- exact HO1.
        -- constructor; [|intros s' i []|constructor]. apply OK_plain; auto.
           ++ apply N.divide_refl.
           ++ change (1 =? 0) with false in Hc2. cbv iota in Hc2. unfold slice_ok. cbn [u8_layout l_size]. ands; try lia. apply (Build.u8_good C).
        -- intros s s' i Hin [<-|[]] T1 T2. pose proof (HO2 L0 s i Hin T1). unfold touched in T2. cbn [touch] in T2. unfold disjoint in *. lia.
      * intros [|f] Hf; [lia|]. cbn [mx_data]. unfold ser_string.
        intros z. unfold bind at 1. rewrite (load_ok m _ _ z H3). rewrite (proj2 (N.eqb_neq _ _) L0).
        rewrite runs_app. pose proof (header_run vl 1 c (N.of_nat (length bs)) a G1 Ha3 H1) as HR.
        rewrite (proj2 (N.eqb_neq _ _) L0) in HR. revert z. apply eqm_bind; [exact HR|]. intros _ z. rewrite runs_one. cbn [run_step].
        rewrite (vec_offsets_ok vl 1 G1). unfold const_or. unfold bind at 1, ret at 1. cbn [vo_ptr].
        rewrite !addr_ref by lia. unfold bind at 1. rewrite (load_ok m _ _ z H2). reflexivity.
  - (* arrays *)
    intros t n a vs -> H1 IH Hw Ha. split; [|exact Logic.I].
    inversion Hw as [| | | |t' n' Ht HP| | |]; subst. change (size_of E (TArray t (N.of_nat (length vs)))) with (size_of E t * N.of_nat (length vs)) in *.
    destruct (IH Ht a 0 ltac:(lia) ltac:(apply N.divide_0_r) ltac:(lia)) as (ss & K1 & K2 & K3 & K4). rewrite N.add_0_l in K2.
    exists ss. ands.
    + apply K_array. rewrite Nat2N.id. exact K1.
    + exact K2.
    + intros [|f] Hf; [lia|]. cbn [mx_data]. rewrite Nat2N.id. apply K4. cbn [vdepth] in Hf. lia.
  - (* structs and tuples *)
    intros l fs a vs H1 [IH HL] Hw Ha. split; [|exists vs; auto].
    inversion Hw as [| | | | |l' fs' Hg Hf' Hin| |]; subst.
    destruct (IH l (map (fun _ => CSerialize) fs) Hf' Hg Hin Ha ltac:(apply map_length)) as (ss & K1 & K2 & K3 & K4).
    { intros n w off t Hn. exfalso. eapply own_proxies. exact Hn. }
    exists ss. ands; [apply K_struct; exact K1|exact K2|].
    intros [|f] Hf; [lia|]. cbn [mx_data]. rewrite <- (own_fields pg k m sf). apply K4. cbn [vdepth] in Hf. lia.
  - (* enums and Option *)
    intros l d vss a j fs vs H1 H2 H3 [IH HL] Hw Ha. split; [|exists j, fs, vs; auto].
    inversion Hw as [| | | | | |l' d' vss' Hg Hd' Hf' Hin|]; subst.
    destruct (IH l (map (fun _ => CSerialize) fs) (Hf' j fs H2) Hg (fun o t => Hin j fs o t H2) Ha ltac:(apply map_length)) as (ss & K1 & K2 & K3 & K4).
    { intros n w off t Hn. exfalso. eapply own_proxies. exact Hn. }
    exists ss. ands; [eapply K_enum; eassumption|exact K2|].
    intros [|f] Hf; [lia|]. cbn [mx_data]. rewrite H1, H2. rewrite <- (own_fields pg k m sf). apply K4. cbn [vdepth] in Hf. lia.
  - (* named types *)
    intros id d a v H1 H2 IH Hw Ha. split; [|exact Logic.I].
    assert (HL : layout_of E (TNamed id) = layout_of E d) by (apply (named_size E HE); exact H1).
    assert (HD : size_of E (TNamed id) = size_of E d) by (unfold size_of; rewrite HL; reflexivity).
    assert (HA : align_of E (TNamed id) = align_of E d) by (unfold align_of; rewrite HL; reflexivity).
    destruct (HE id d H1) as [Wd _]. rewrite HD in Ha. destruct (IH Wd Ha) as [_ Pt].
    pose proof (PO id d H1) as Pk. unfold ty_goal.
    destruct (impl_for pg id) as [i|h|] eqn:EI; [| |contradiction].
    + inversion Pk as [l fs dfs im Ed Hl Hn Hg Hq|l dd vss vs im Ed Hl Hn Hg]; subst.
      * inversion Wd as [| | | | |l' fs' Gl Hf' Hin| |]; subst.
        destruct Pt as (vs & -> & FG & LL). destruct (pick_callees _ Hq) as [cs Hcs].
        assert (LC : length cs = length fs) by (rewrite <- Hn; symmetry; eapply SerFacts.F2_length; exact Hcs).
        destruct (FG l cs Hf' Gl Hin Ha LC) as (ss & K1 & K2 & K3 & K4).
        { intros n w off t Hn1 Hn2. assert (Hx : exists f, nth_error (field_list dfs) n = Some f /\ wanted f (CWith w)).
          { clear - Hcs Hn1. revert n Hn1. induction Hcs as [|f c l cs' Hf Hr IH]; intros [|n] Hn1; cbn in *; try discriminate.
            - injection Hn1 as ->. eauto.
            - eauto. }
          destruct Hx as (f & Hnf & Hwf). inversion Hwf; subst.
          exists id, i, l, fs, dfs, n, f, off. auto 10. }
        exists ss. ands.
        -- eapply K_derived; eassumption.
        -- rewrite HD, HA. exact K2.
        -- intros [|f] Hf; [lia|]. cbn [mx_data]. rewrite EI, H1. unfold exec_derived.
           destruct (struct_generated LO i dfs im cs Ed Hl Hg Hcs) as (ks & G1 & G2 & G3). rewrite G1.
           rewrite (exec_from pg k m sf _ a ks fs [] fs eq_refl ltac:(rewrite G2, Hn; reflexivity)), G3. apply K4. cbn [vdepth] in Hf. lia.
      * inversion Wd as [| | | | | |l' d' vss' Gl Hd' Hf' Hin|]; subst.
        destruct Pt as (j & fs & xs & -> & Rd & Nj & FG).
        destruct (FG l (map (fun _ => CSerialize) fs) (Hf' j fs Nj) Gl (fun o t => Hin j fs o t Nj) Ha ltac:(apply map_length)) as (ss & K1 & K2 & K3 & K4).
        { intros n w off t Hn1. exfalso. eapply own_proxies. exact Hn1. }
        exists ss. ands.
        -- eapply K_derived_enum; eassumption.
        -- rewrite HD, HA. exact K2.
        -- intros [|f] Hf; [lia|]. cbn [mx_data]. rewrite EI, H1, Rd, Nj. unfold exec_derived.
           assert (Hx : exists vv, nth_error vs j = Some vv /\ length (field_list (v_fields vv)) = length fs).
           { clear - Hn Nj. revert j Nj. induction Hn as [|x y l1 l2 Hxy Hr IH]; intros [|j] Nj; cbn in *; try discriminate.
             - injection Nj as ->. eauto.
             - eauto. }
           destruct Hx as (vv & Hv1 & Hv2). rewrite (enum_generated LO i vs im j vv Ed Hl Hg Hv1), Hv2, own_calls, <- (own_fields pg k m sf).
           apply K4. cbn [vdepth] in Hf. lia.
    + exists (h m a). ands.
      * apply K_hand. exact EI.
      * destruct WB as [WB1 _]. apply (WB1 id h EI a v); [econstructor; eassumption|]. rewrite HD. exact Ha.
      * intros [|f] Hf; [lia|]. cbn [mx_data]. rewrite EI. apply eqm_refl.
  - intros t a Hw b off -> Hd Hb. exists []. ands; [constructor|constructor|intros s i []|]. intros f _. apply eqm_refl.
  - intros t a v vs H1 IH1 H2 IH2 Hw b off -> Hd Hb. cbn [length] in *. rewrite Nat2N.inj_succ in *.
    destruct (IH1 Hw ltac:(lia)) as [(s1 & K1 & K2 & K3) _].
    pose proof (wf_good C E HE t Hw) as G. destruct G as (G1 & G2 & G3 & G4). fold (size_of E t) (align_of E t) in *.
    destruct (IH2 Hw b (off + size_of E t) ltac:(lia) ltac:(apply N.divide_add_r; assumption) ltac:(lia)) as (s2 & J1 & J2 & J3 & J4).
    exists (map (shift off) s1 ++ s2). ands.
    + constructor; assumption.
    + apply app_ok.
      * apply (shifts_ok pg m sf off s1 (size_of E t) (align_of E t)); auto; [lia|apply N.divide_refl].
      * replace (off + size_of E t * N.succ (N.of_nat (length vs))) with (off + size_of E t + size_of E t * N.of_nat (length vs)) by lia. exact J2.
      * intros s s' i Hi Hi' T T'. pose proof (shifts_in pg m sf off s1 _ _ _ K2 s i Hi T). pose proof (J3 s' i Hi' T'). lia.
    + intros s i Hi T. apply in_app_or in Hi. destruct Hi as [Hi|Hi].
      * pose proof (shifts_in pg m sf off s1 _ _ _ K2 s i Hi T). lia.
      * pose proof (J3 s i Hi T). lia.
    + intros f Hf z. cbn [map list_max fold_right] in Hf. fold (list_max (map vdepth vs)) in Hf.
      rewrite runs_app, shift_runs. cbn [for_elems]. revert z. apply eqm_bind; [apply K3; lia|intros _]. apply J4. lia.
  - intros a. split; [|reflexivity]. intros l cs Ho Hg Hin Ha Hl Hp. destruct cs; [|discriminate]. exists []. ands; [constructor|constructor|intros s i []|]. intros f _. apply eqm_refl.
  - intros off t fs a v vs H1 IH1 H2 [IH2 HL]. split; [|cbn; lia]. intros l cs Ho Hg Hin Ha Hl Hp.
    destruct cs as [|c cs]; [discriminate|]. injection Hl as Hl.
    inversion Ho as [|off' t' fs' O1 O2 O3 O4 O5]; subst.
    assert (Hw : wf_ty E t) by (eapply Hin; left; reflexivity).
    destruct (IH2 l cs O5 Hg (fun o t Hi => Hin o t (or_intror Hi)) Ha Hl (fun n w o t => Hp (S n) w o t)) as (s2 & J1 & J2 & J3 & J4).
    pose proof (wf_good C E HE t Hw) as (G1 & G2 & G3 & G4). fold (size_of E t) (align_of E t) in *.
    assert (Hs : forall s1, steps_ok E m sf (size_of E t) (align_of E t) (a + off) s1 ->
      steps_ok E m sf (l_size l) (l_align l) a (map (shift off) s1 ++ s2) /\
      (forall s i, In s (map (shift off) s1 ++ s2) -> touched E s i -> exists o u, In (o, u) ((off, t) :: fs) /\ o <= i /\ i < o + size_of E u)).
    { intros s1 K2. split.
      - apply app_ok; [|exact J2|].
        + apply (shifts_ok pg m sf off s1 (size_of E t) (align_of E t)); auto. apply pow2_divide; [exact G1|apply Hg|exact O3].
        + intros s s' i Hi Hi' T T'. pose proof (shifts_in pg m sf off s1 _ _ _ K2 s i Hi T). destruct (J3 s' i Hi' T') as (o & u & Hou & Hi1 & Hi2).
          pose proof (O4 o u Hou) as D. unfold disjoint in D. lia.
      - intros s i Hi T. apply in_app_or in Hi. destruct Hi as [Hi|Hi].
        + exists off, t. split; [left; reflexivity|]. exact (shifts_in pg m sf off s1 _ _ _ K2 s i Hi T).
        + destruct (J3 s i Hi T) as (o & u & Hou & Hi1). exists o, u. split; [right; exact Hou|exact Hi1]. }
    destruct c as [|w].
    + destruct (IH1 Hw ltac:(lia)) as [(s1 & K1 & K2 & K3) _]. destruct (Hs s1 K2) as [S1 S2].
      exists (map (shift off) s1 ++ s2). ands; [constructor; assumption|exact S1|exact S2|].
      intros f Hf z. cbn [map list_max fold_right] in Hf. fold (list_max (map vdepth vs)) in Hf.
      rewrite runs_app, shift_runs. cbn [for_callees callee_run]. revert z. apply eqm_bind; [apply K3; lia|intros _]. apply J4. lia.
    + pose proof (Hp O w off t eq_refl eq_refl) as Hpx. destruct WB as [_ WB2].
      pose proof (WB2 w t Hpx (a + off) v H1 ltac:(lia)) as K2. destruct (Hs _ K2) as [S1 S2].
      exists (map (shift off) (pr_with pg w t m (a + off)) ++ s2). ands; [constructor; assumption|exact S1|exact S2|].
      intros f Hf z. cbn [map list_max fold_right] in Hf. fold (list_max (map vdepth vs)) in Hf.
      rewrite runs_app, shift_runs. cbn [for_callees callee_run]. revert z. apply eqm_bind; [apply eqm_refl|intros _]. apply J4. lia.
Qed.
End Main.
