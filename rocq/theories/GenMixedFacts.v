(** * GenMixedFacts: proofs for C90. *)
From Coq Require Import Arith.
From Verif Require Import Base Types Storage Serializer Serialize Client Spec ClientSpec ArithFacts TypeFacts SerMain SerRoot SerProps ClientFacts Build Depth
  Derive DeriveSpec DeriveFacts PropDerive Mixed MixedFacts
  GenStorage GenSerializer GenClient GenClientSpec GenClientFacts GenMixed.
From Coq Require Import ZifyBool ZifyNat ZifyN.
Local Open Scope N_scope.

(** ** Equal computations *)
Section Eq.
Context {P : Params} {St : Type}.
Variable R : ra_impl St.
Variable k : kind.
Definition geq {A} (f g : M (gz St) A) : Prop := forall z, f z = g z.
Lemma geq_refl {A} (f : M (gz St) A) : geq f f. Proof. intros z. reflexivity. Qed.
Lemma geq_bind {A B} (f f' : M (gz St) A) (g g' : A -> M (gz St) B) :
  geq f f' -> (forall a, geq (g a) (g' a)) -> geq (bind f g) (bind f' g').
Proof. intros H1 H2 z. unfold bind. rewrite H1. destruct (f' z); auto. apply H2. Qed.
Lemma geq_pps s a (f g : M (gz St) unit) : geq f g -> geq (g_push_and_process_slice R k s a f) (g_push_and_process_slice R k s a g).
Proof.
  intros H. destruct k; cbn [g_push_and_process_slice];
    repeat (first [apply geq_bind; [first [apply geq_refl|exact H]|intros ?]|apply geq_refl]).
Qed.
Lemma geq_svw s (f g : M (gz St) unit) : geq f g -> geq (g_serialize_value_with R k s f) (g_serialize_value_with R k s g).
Proof.
  intros H. destruct k; cbn [g_serialize_value_with];
    repeat (first [apply geq_bind; [first [apply geq_refl|exact H]|intros ?]|apply geq_refl]).
Qed.
Lemma gload_ok m a w (z : gz St) : read_word m a = Some w -> load_word m a z = Ok w z.
Proof. intros H. unfold load_word. rewrite H. reflexivity. Qed.
End Eq.

Section Facts.
Context {P : Params} {L : Lexer}.
Context {St : Type}.
Variable R : ra_impl St.
Variable pg : program.
Variable k : kind.
Variable m : mem.
Variable sf : nat.
Notation E := (pr_env pg).
Notation runs a ss := (g_run_steps R k E m sf a ss).
Hypothesis C : cfg_ok.
Hypothesis HE : wf_env E.

Lemma g_runs_app s1 : forall s2 a, geq (runs a (s1 ++ s2)) (runs a s1 ;;; runs a s2).
Proof.
  induction s1 as [|s s1 IH]; intros s2 a z; [reflexivity|]. cbn [app g_run_steps].
  unfold bind at 1 2 3. destruct (g_run_step R k E m sf a s z); try reflexivity. apply IH.
Qed.
Lemma g_runs_one s a : geq (runs a [s]) (g_run_step R k E m sf a s).
Proof. intros z. cbn [g_run_steps]. unfold bind, ret. destruct (g_run_step R k E m sf a s z) as [[] ?| | | |]; reflexivity. Qed.

Lemma g_shift_run d s a : g_run_step R k E m sf a (shift d s) = g_run_step R k E m sf (a + d) s.
Proof.
  assert (Ha : forall off, addr_from_ref_offset (S := gz St) k a (d + off) = addr_from_ref_offset k (a + d) off).
  { intros off. unfold addr_from_ref_offset, add_u. rewrite N.add_assoc. reflexivity. }
  destruct s; cbn [shift]; rewrite ?g_run_push; cbn [g_run_step]; rewrite ?Ha, ?N.add_assoc; reflexivity.
Qed.
Lemma g_shift_runs d ss : forall a, runs a (map (shift d) ss) = runs (a + d) ss.
Proof. induction ss as [|s ss IH]; intros a; [reflexivity|]. cbn [map g_run_steps]. rewrite g_shift_run, IH. reflexivity. Qed.

(** ** Generated code *)
Fixpoint g_for_callees (rec : ty -> N -> M (gz St) unit) (fs : list (N * ty)) (cs : list callee) (a : N) : M (gz St) unit :=
  match fs, cs with
  | (off, t) :: fs', c :: cs' => g_callee_run R pg k m sf rec c t (a + off) ;;; g_for_callees rec fs' cs' a
  | _, _ => ret tt
  end.
Lemma g_exec_from rec a : forall cs fs fs1 fs2,
  fs = fs1 ++ fs2 -> map snd cs = seq (length fs1) (length fs2) ->
  g_exec R pg k m sf rec fs a cs = g_for_callees rec fs2 (map fst cs) a.
Proof.
  induction cs as [|[c n] cs IH]; intros fs fs1 fs2 He Hs.
  - destruct fs2; [reflexivity|discriminate].
  - destruct fs2 as [|[off t] fs2]; [discriminate|]. cbn in Hs. injection Hs as -> Hs.
    cbn [g_exec g_for_callees map fst]. rewrite He, nth_error_app2, Nat.sub_diag by auto. cbn [nth_error].
    f_equal. rewrite <- He. rewrite (IH fs (fs1 ++ [(off, t)]) fs2); auto.
    + now rewrite <- app_assoc.
    + rewrite app_length. cbn. rewrite Nat.add_1_r. exact Hs.
Qed.
Lemma g_own_fields rec a : forall fs, g_for_callees rec fs (map (fun _ => CSerialize) fs) a = g_for_fields fs a rec.
Proof. induction fs as [|[off t] fs IH]; [reflexivity|]. cbn [map g_for_callees g_for_fields g_callee_run]. rewrite IH. reflexivity. Qed.
Lemma g_own_calls rec fs a : g_exec R pg k m sf rec fs a (map (fun n => (CSerialize, n)) (seq 0 (length fs))) = g_for_fields fs a rec.
Proof.
  rewrite (g_exec_from rec a _ fs [] fs) by (auto; rewrite map_map; cbn; apply map_id).
  rewrite map_map. cbn [fst]. rewrite <- g_own_fields. f_equal.
  generalize 0%nat. induction fs as [|x fs IH]; intros n; [reflexivity|]. cbn [length seq map]. rewrite IH. reflexivity.
Qed.

(** ** Headers *)
Lemma gaddr_ref {A} a off (f : addr -> M (gz St) A) z :
  a + off < umod -> bind (addr_from_ref_offset k a off) f z = f (addr_of k (a + off)) z.
Proof. apply (g_addr_bind k). Qed.
Lemma gaddr_ref0 {A} a (f : addr -> M (gz St) A) z : bind (addr_from_ref k a) f z = f (addr_of k a) z.
Proof. unfold addr_from_ref, addr_of, bind. destruct (tracking k); reflexivity. Qed.
Lemma g_over_run a off l data z : a + off < umod ->
  g_run_step R k E m sf a (SOver off l data) z = g_overwrite_with k (g_overwrite R k (addr_of k (a + off)) l data) z.
Proof.
  intros H. cbn [g_run_step]. unfold g_overwrite_with. destruct k eqn:Ek; try reflexivity. rewrite <- Ek in *. apply gaddr_ref. exact H.
Qed.
Lemma g_two_overs a o1 l1 d1 o2 l2 d2 z : @g_overwrite_with St k = (fun f => f) -> a + o1 < umod -> a + o2 < umod ->
  (ad <- addr_from_ref_offset k a o1 ;; g_overwrite R k ad l1 d1 ;;;
   ad <- addr_from_ref_offset k a o2 ;; g_overwrite R k ad l2 d2) z = runs a [SOver o1 l1 d1; SOver o2 l2 d2] z.
Proof.
  intros HO H1 H2. rewrite gaddr_ref by exact H1. cbv beta. cbn [g_run_steps]. unfold bind at 1 3. rewrite g_over_run, HO by exact H1.
  destruct (g_overwrite R k (addr_of k (a + o1)) l1 d1 z) as [[] z'| | | |]; try reflexivity.
  rewrite gaddr_ref by exact H2. unfold bind. rewrite g_over_run, HO by exact H2.
  destruct (g_overwrite R k (addr_of k (a + o2)) l2 d2 z') as [[] z''| | | |]; reflexivity.
Qed.
Lemma g_header_run vl dangle cap len a :
  dangle <> 0 -> a + 3 * pW <= umod -> read_word m (a + cap_off vl) = Some cap ->
  geq (g_overwrite_with k (
      cap <- load_word m (a + cap_off vl) ;;
      if negb (cap =? len) then
        if len =? 0 then (vo <- const_or (vec_offsets vl dangle) ;; g_overwrite_empty R k vo dangle a)
        else (vo <- const_or (vec_offsets vl dangle) ;;
              cap_addr <- addr_from_ref_offset k a (vo_cap vo) ;;
              g_overwrite R k cap_addr usize_layout (word_src len))
      else ret tt)) (runs a (header_calls vl dangle cap len)).
Proof.
  intros Hd Ha Hc z. pose proof (pW_vals (c_machine C)) as HW. destruct (vl_offs vl ltac:(lia)) as (V1 & V2 & V3 & _).
  assert (Hw : pW <> 0) by lia.
  unfold header_calls. destruct k eqn:Ek.
  1-3: destruct (cap =? len); [reflexivity|]; destruct (len =? 0); [|reflexivity]; destruct vl; reflexivity.
  rewrite <- Ek. cbn [g_overwrite_with]. assert (HO : @g_overwrite_with St k = fun f => f) by (rewrite Ek; reflexivity).
  rewrite HO. unfold bind at 1. rewrite (gload_ok m _ _ z Hc).
  destruct (cap =? len); [reflexivity|]. cbn [negb].
  destruct (len =? 0).
  - rewrite (vec_offsets_ok vl dangle Hd). unfold const_or. unfold bind at 1, ret at 1. unfold g_overwrite_empty; cbn [vo_cap vo_ptr].
    unfold cap_off, ptr_off in *.
    destruct vl; cbn [cap_ix ptr_ix emptied] in *; unfold cap_off, ptr_off; cbn [cap_ix ptr_ix];
    repeat match goal with |- context [?x =? ?y] => destruct (N.eqb_spec x y); [try (exfalso; lia)|try (exfalso; lia)] end; cbn [andb].
    all: try (rewrite (g_runs_one _ a z), g_over_run by lia; rewrite HO;
              first [rewrite gaddr_ref0, N.add_0_r; reflexivity | apply gaddr_ref; lia]).
    all: apply g_two_overs; [exact HO|lia|lia].
  - rewrite (vec_offsets_ok vl dangle Hd). unfold const_or. unfold bind at 1, ret at 1. cbn [vo_cap].
    rewrite (g_runs_one _ a z), g_over_run by lia. rewrite HO. apply gaddr_ref. lia.
Qed.
End Facts.

(** ** The calls made are those of the value *)
Section Main.
Context {P : Params} {L : Lexer}.
Context {St : Type}.
Variable R : ra_impl St.
Variable pg : program.
Variable k : kind.
Variable m : mem.
Variable sf : nat.
Notation E := (pr_env pg).
Notation runs a ss := (g_run_steps R k E m sf a ss).
Hypothesis C : cfg_ok.
Hypothesis HE : wf_env E.
Hypothesis LO : lexer_ok.
Hypothesis PO : program_ok pg.
Notation H := any_header.

Definition g_fields_goal (fs : list (N * ty)) (a : N) (vs : list val) : Prop :=
  forall l, fields_ok E l fs -> good_layout l -> (forall o t, In (o, t) fs -> wf_ty E t) -> a + l_size l <= umod ->
  forall cs ss, makes_fields pg m fs cs a ss ->
  forall f, (list_max (map vdepth vs) < f)%nat -> geq (g_for_callees R pg k m sf (g_mx_data R pg k m sf f) fs cs a) (runs a ss).
Definition g_ty_goal (t : ty) (a : N) (v : val) : Prop :=
  forall ss, makes pg m t a ss ->
  forall f, (vdepth v < f)%nat -> geq (g_mx_data R pg k m sf f t a) (runs a ss).
Definition g_parts (t : ty) (a : N) (v : val) : Prop :=
  match t with
  | TStruct l fs => exists vs, v = VStruct vs /\ g_fields_goal fs a vs
  | TEnum l d vss => exists j fs vs, v = VEnum j vs /\ read_discr m a d = Some j /\ nth_error vss j = Some fs /\ g_fields_goal fs a vs
  | _ => True
  end.
Definition g_elems_goal (t : ty) (a : N) (vs : list val) : Prop :=
  wf_ty E t -> forall b off, a = b + off ->
  b + off + size_of E t * N.of_nat (length vs) <= umod ->
  forall ss, makes_elems pg m t (length vs) off b ss ->
  forall f, (list_max (map vdepth vs) < f)%nat -> geq (g_for_elems (length vs) a (size_of E t) (g_mx_data R pg k m sf f t)) (runs b ss).

Lemma g_main :
  (forall t a v, repr E H m t a v -> wf_ty E t -> a + size_of E t <= umod -> g_ty_goal t a v /\ g_parts t a v) /\
  (forall t a vs, repr_elems E H m t a vs -> g_elems_goal t a vs) /\
  (forall fs a vs, repr_fields E H m fs a vs -> g_fields_goal fs a vs).
Proof.
  pose proof (pW_vals (c_machine C)) as HW.
  apply (repr_mut P E H m
    (fun t a v => wf_ty E t -> a + size_of E t <= umod -> g_ty_goal t a v /\ g_parts t a v)
    g_elems_goal g_fields_goal).
  - (* primitives *)
    intros l ok a n H1 H2 Hw Ha. split; [|exact Logic.I]. intros ss Hm. inversion Hm; subst.
    intros [|f] Hf; [lia|]. apply geq_refl.
  - (* Box *)
    intros t a p v H1 H2 H3 H4 IH Hw Ha. split; [|exact Logic.I].
    inversion Hw as [|t' Ht HP| | | | | |]; subst.
    destruct H2 as (Hp0 & Hpa & Hpe). fold (size_of E t) in Hpe.
    intros ss Hm. inversion Hm as [|t1 a1 p1 sb NZ Q1 Q2|t1 a1 Z| | | | | | | | | | |]; subst.
    + assert (p1 = p) by congruence. subst. destruct (IH Ht ltac:(lia)) as [K3 _].
      intros [|f] Hf; [lia|]. cbn [g_mx_data]. unfold g_ser_box. rewrite (proj2 (N.eqb_neq _ _) NZ).
      intros z. rewrite g_runs_one, g_run_push.
      rewrite gaddr_ref0, gaddr_ref by (unfold size_of in Ha; cbn [layout_of usize_layout l_size] in Ha; lia).
      rewrite N.add_0_r. unfold bind at 1. rewrite (gload_ok m _ _ z H1).
      apply geq_bind; [|intros; apply geq_refl]. apply geq_pps. apply K3; [exact Q2|]. cbn [vdepth] in Hf. lia.
    + intros [|f] Hf; [lia|]. cbn [g_mx_data]. unfold g_ser_box. rewrite Z. apply geq_refl.
  - (* Vec *)
    intros vl t a c p vs H1 H2 H3 H4 H5 H6 IH Hw Ha. split; [|exact Logic.I].
    inversion Hw as [| |vl' t' Ht HP| | | | |]; subst.
    destruct H4 as ((Hp0 & Hpa & Hpe) & Hc1 & Hc2 & Hc3). fold (size_of E t) in *.
    assert (Ha3 : a + 3 * pW <= umod) by exact Ha.
    assert (Ga : align_of E t <> 0).
    { pose proof (wf_good C E HE t Ht) as (G1 & _). apply pow2_pos in G1. unfold align_of. lia. }
    destruct (vl_offs vl ltac:(lia)) as (V1 & V2 & V3 & V4 & V5 & V6 & V7 & V8 & V9).
    intros ss Hm. inversion Hm as [| | |vl1 t1 a1 p1 cap1 len1 sb NZ Q1 Q2 Q3 Q4 Q5|vl1 t1 a1 cap1 NZ Q1 Q3|vl1 t1 a1 Z| | | | | | | |]; subst.
    + assert (p1 = p) by congruence. assert (cap1 = c) by congruence. assert (len1 = N.of_nat (length vs)) by congruence. subst.
      rewrite Nat2N.id in Q5.
      pose proof (IH Ht p 0 ltac:(lia) ltac:(lia) sb Q5) as K4.
      intros [|f] Hf; [lia|]. cbn [g_mx_data]. unfold g_ser_vec. rewrite (proj2 (N.eqb_neq _ _) NZ).
      intros z. unfold bind at 1. rewrite (gload_ok m _ _ z H3). rewrite (proj2 (N.eqb_neq _ _) Q4).
      rewrite g_runs_app. pose proof (g_header_run R pg k m sf C vl (align_of E t) c (N.of_nat (length vs)) a Ga Ha3 H1) as HR.
      rewrite (proj2 (N.eqb_neq _ _) Q4) in HR. revert z. apply geq_bind; [exact HR|]. intros _ z. rewrite g_runs_one, g_run_push.
      rewrite (vec_offsets_ok vl (align_of E t) Ga). unfold const_or. unfold bind at 1, ret at 1. cbn [vo_ptr].
      rewrite !gaddr_ref by lia. unfold bind at 1. rewrite (gload_ok m _ _ z H2).
      apply geq_bind; [|intros; apply geq_refl]. apply geq_pps. rewrite Nat2N.id. apply K4. cbn [vdepth] in Hf. lia.
    + assert (cap1 = c) by congruence. assert (L0 : N.of_nat (length vs) = 0) by congruence. subst.
      intros [|f] Hf; [lia|]. cbn [g_mx_data]. unfold g_ser_vec. rewrite (proj2 (N.eqb_neq _ _) NZ).
      intros z. unfold bind at 1. rewrite (gload_ok m _ _ z H3), L0. cbn [N.eqb]. rewrite <- (g_header_run R pg k m sf C vl (align_of E t) c 0 a Ga Ha3 H1). reflexivity.
    + intros [|f] Hf; [lia|]. cbn [g_mx_data]. unfold g_ser_vec. rewrite Z. apply geq_refl.
  - (* String *)
    intros vl a c p bs H1 H2 H3 H4 H5 H6 Hw Ha. split; [|exact Logic.I].
    inversion Hw as [| | |vl' HP| | | |]; subst.
    assert (Ha3 : a + 3 * pW <= umod) by exact Ha. assert (G1 : 1 <> 0) by lia.
    destruct (vl_offs vl ltac:(lia)) as (V1 & V2 & V3 & V4 & V5 & V6 & V7 & V8 & V9).
    intros ss Hm. inversion Hm as [| | | | | |vl1 a1 p1 cap1 len1 Q1 Q2 Q3 Q4|vl1 a1 cap1 Q1 Q3| | | | | |]; subst.
    + assert (p1 = p) by congruence. assert (cap1 = c) by congruence. assert (len1 = N.of_nat (length bs)) by congruence. subst.
      intros [|f] Hf; [lia|]. cbn [g_mx_data]. unfold g_ser_string.
      intros z. unfold bind at 1. rewrite (gload_ok m _ _ z H3). rewrite (proj2 (N.eqb_neq _ _) Q4).
      rewrite g_runs_app. pose proof (g_header_run R pg k m sf C vl 1 c (N.of_nat (length bs)) a G1 Ha3 H1) as HR.
      rewrite (proj2 (N.eqb_neq _ _) Q4) in HR. revert z. apply geq_bind; [exact HR|]. intros _ z. rewrite g_runs_one. cbn [g_run_step].
      rewrite (vec_offsets_ok vl 1 G1). unfold const_or. unfold bind at 1, ret at 1. cbn [vo_ptr].
      rewrite !gaddr_ref by lia. unfold bind at 1. rewrite (gload_ok m _ _ z H2). reflexivity.
    + assert (cap1 = c) by congruence. assert (L0 : N.of_nat (length bs) = 0) by congruence. subst.
      intros [|f] Hf; [lia|]. cbn [g_mx_data]. unfold g_ser_string.
      intros z. unfold bind at 1. rewrite (gload_ok m _ _ z H3), L0. cbn [N.eqb]. rewrite <- (g_header_run R pg k m sf C vl 1 c 0 a G1 Ha3 H1). reflexivity.
  - (* arrays *)
    intros t n a vs -> H1 IH Hw Ha. split; [|exact Logic.I].
    inversion Hw as [| | | |t' n' Ht HP| | |]; subst. change (size_of E (TArray t (N.of_nat (length vs)))) with (size_of E t * N.of_nat (length vs)) in *.
    intros ss Hm. inversion Hm as [| | | | | | | |t1 n1 a1 sb Q| | | | |]; subst. rewrite Nat2N.id in Q.
    pose proof (IH Ht a 0 ltac:(lia) ltac:(lia) ss Q) as K4.
    intros [|f] Hf; [lia|]. cbn [g_mx_data]. rewrite Nat2N.id. apply K4. cbn [vdepth] in Hf. lia.
  - (* structs and tuples *)
    intros l fs a vs H1 IH Hw Ha. split; [|exists vs; auto].
    inversion Hw as [| | | | |l' fs' Hg Hf' Hin| |]; subst.
    intros ss Hm. inversion Hm as [| | | | | | | | |l1 fs1 a1 sb Q| | | |]; subst.
    intros [|f] Hf; [lia|]. cbn [g_mx_data]. rewrite <- (g_own_fields R pg k m sf). apply (IH l Hf' Hg Hin Ha); [exact Q|]. cbn [vdepth] in Hf. lia.
  - (* enums and Option *)
    intros l d vss a j fs vs H1 H2 H3 IH Hw Ha. split; [|exists j, fs, vs; auto].
    inversion Hw as [| | | | | |l' d' vss' Hg Hd' Hf' Hin|]; subst.
    intros ss Hm. inversion Hm as [| | | | | | | | | |l1 d1 vss1 a1 j1 fs1 sb Q1 Q2 Q| | |]; subst.
    assert (j1 = j) by congruence. subst. assert (fs1 = fs) by congruence. subst.
    intros [|f] Hf; [lia|]. cbn [g_mx_data]. rewrite H1, H2. rewrite <- (g_own_fields R pg k m sf).
    apply (IH l (Hf' j fs H2) Hg (fun o t => Hin j fs o t H2) Ha); [exact Q|]. cbn [vdepth] in Hf. lia.
  - (* named types *)
    intros id d a v H1 H2 IH Hw Ha. split; [|exact Logic.I].
    assert (HL : layout_of E (TNamed id) = layout_of E d) by (apply (named_size E HE); exact H1).
    assert (HD : size_of E (TNamed id) = size_of E d) by (unfold size_of; rewrite HL; reflexivity).
    destruct (HE id d H1) as [Wd _]. rewrite HD in Ha. destruct (IH Wd Ha) as [_ Pt].
    pose proof (PO id d H1) as Pk.
    intros ss Hm. inversion Hm as [| | | | | | | | | | |id1 h a1 EI|id1 i l fs dfs cs a1 sb EI Ei Ed Hcs Q|id1 i l dd vss j fs a1 sb EI Ei Rd Nj Q]; subst.
    + intros [|f] Hf; [lia|]. cbn [g_mx_data]. rewrite EI. apply geq_refl.
    + rewrite EI in Pk. rewrite H1 in Ei. injection Ei as ->.
      inversion Pk as [l2 fs2 dfs2 im Ed2 Hl Hn Hg Hq|]; subst. rewrite Ed in Ed2. injection Ed2 as <-.
      inversion Wd as [| | | | |l' fs' Gl Hf' Hin| |]; subst.
      destruct Pt as (vs & -> & FG).
      intros [|f] Hf; [lia|]. cbn [g_mx_data]. rewrite EI, H1. unfold g_exec_derived.
      destruct (struct_generated LO i dfs im cs Ed Hl Hg Hcs) as (ks & G1 & G2 & G3). rewrite G1.
      rewrite (g_exec_from R pg k m sf _ a ks fs [] fs eq_refl ltac:(rewrite G2, Hn; reflexivity)), G3.
      apply (FG l Hf' Gl Hin Ha); [exact Q|]. cbn [vdepth] in Hf. lia.
    + rewrite EI in Pk. rewrite H1 in Ei. injection Ei as ->.
      inversion Pk as [|l2 dd2 vss2 vs im Ed Hl Hn Hg]; subst.
      inversion Wd as [| | | | | |l' d' vss' Gl Hd' Hf' Hin|]; subst.
      destruct Pt as (j' & fs' & xs & -> & Rd' & Nj' & FG).
      assert (j' = j) by congruence. subst. assert (fs' = fs) by congruence. subst.
      intros [|f] Hf; [lia|]. cbn [g_mx_data]. rewrite EI, H1, Rd, Nj. unfold g_exec_derived.
      assert (Hx : exists vv, nth_error vs j = Some vv /\ length (field_list (v_fields vv)) = length fs).
      { clear - Hn Nj. revert j Nj. induction Hn as [|x y l1 l2 Hxy Hr IH]; intros [|j] Nj; cbn in *; try discriminate.
        - injection Nj as ->. eauto.
        - eauto. }
      destruct Hx as (vv & Hv1 & Hv2). rewrite (enum_generated LO i vs im j vv Ed Hl Hg Hv1), Hv2, g_own_calls, <- (g_own_fields R pg k m sf).
      apply (FG l (Hf' j fs Nj) Gl (fun o t => Hin j fs o t Nj) Ha); [exact Q|]. cbn [vdepth] in Hf. lia.
  - intros t a Hw b off -> Hb ss Hm f _. inversion Hm; subst. apply geq_refl.
  - intros t a v vs H1 IH1 H2 IH2 Hw b off -> Hb ss Hm f Hf. cbn [length] in *. rewrite Nat2N.inj_succ in *.
    inversion Hm as [|t1 n1 off1 a1 s1 s2 Q1 Q2]; subst.
    destruct (IH1 Hw ltac:(lia)) as [K3 _].
    pose proof (IH2 Hw b (off + size_of E t) ltac:(lia) ltac:(lia) s2 Q2) as J4.
    cbn [map list_max fold_right] in Hf. fold (list_max (map vdepth vs)) in Hf.
    intros z. rewrite g_runs_app, g_shift_runs. cbn [g_for_elems]. revert z. apply geq_bind; [apply K3; [exact Q1|lia]|intros _]. apply J4. lia.
  - intros a l _ _ _ _ cs ss Hm f _. inversion Hm; subst. apply geq_refl.
  - intros off t fs a v vs H1 IH1 H2 IH2 l Ho Hg Hin Ha cs ss Hm f Hf.
    inversion Ho as [|off' t' fs' O1 O2 O3 O4 O5]; subst.
    assert (Hw : wf_ty E t) by (eapply Hin; left; reflexivity).
    cbn [map list_max fold_right] in Hf. fold (list_max (map vdepth vs)) in Hf.
    pose proof (fun cs ss Hm => IH2 l O5 Hg (fun o t Hi => Hin o t (or_intror Hi)) Ha cs ss Hm f ltac:(lia)) as J4.
    inversion Hm as [|off1 t1 fs1 cs1 a1 s1 s2 Q1 Q2|off1 t1 fs1 w cs1 a1 s2 Q2]; subst; intros z; rewrite g_runs_app, g_shift_runs; cbn [g_for_callees g_callee_run];
      revert z; (apply geq_bind; [|intros _; apply J4; exact Q2]).
    + destruct (IH1 Hw ltac:(lia)) as [K3 _]. apply K3; [exact Q1|lia].
    + apply geq_refl.
Qed.
End Main.

(** ** Plain programs make plain calls *)
Section Plain.
Context {P : Params} {L : Lexer}.
Variable pg : program.
Variable m : mem.
Hypothesis PP : plain_program pg m.

Lemma plain_shift d s : plain (shift d s) = plain s.
Proof. destruct s; reflexivity. Qed.
Lemma plain_shifts d ss : forallb plain (map (shift d) ss) = forallb plain ss.
Proof. induction ss as [|s ss IH]; [reflexivity|]. cbn [map forallb]. rewrite plain_shift, IH. reflexivity. Qed.
Lemma plain_header vl dg cap len : forallb plain (header_calls vl dg cap len) = true.
Proof. unfold header_calls. destruct (cap =? len); [reflexivity|]. destruct (len =? 0); [|reflexivity]. destruct vl; reflexivity. Qed.

Lemma makes_plain :
  (forall t a ss, makes pg m t a ss -> forallb plain ss = true) /\
  (forall t n off a ss, makes_elems pg m t n off a ss -> forallb plain ss = true) /\
  (forall fs cs a ss, makes_fields pg m fs cs a ss -> forallb plain ss = true).
Proof.
  destruct PP as [PP1 PP2].
  assert (Hps : forall l n, n <> 0 -> plain_slice l n = true) by (intros l n Hn; unfold plain_slice; lia).
  apply (makes_mind P pg m
    (fun t a ss _ => forallb plain ss = true)
    (fun t n off a ss _ => forallb plain ss = true)
    (fun fs cs a ss _ => forallb plain ss = true)); intros; rewrite ?forallb_app, ?plain_header, ?plain_shifts; cbn [forallb andb plain];
    rewrite ?Hps by (assumption || discriminate); repeat match goal with HH : forallb plain _ = true |- _ => rewrite HH; clear HH end; auto.
  - eapply PP1. eassumption.
  - rewrite PP2. reflexivity.
Qed.
End Plain.
