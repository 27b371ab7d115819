(** * CatchFacts: implementations that catch panics (Catch.v), over any storage. *)
From Verif Require Import Base Types Storage Serializer Serialize Spec ArithFacts StorageFacts StorageHist MemFacts TypeFacts
  SerFacts SerMain SerValue SerRoot SerProps Client ClientSpec ClientFacts
  GenStorage GenSpec GenFacts GenSerializer GenSerSpec GenSerFacts GenSerMain GenSerValue GenSerRoot GenClient GenClientSpec GenClientFacts
  Catch.
From Coq Require Import ZifyBool ZifyNat ZifyN.
Local Open Scope N_scope.

(** ** Calls that leave the position mapping alone *)
Section Keeps.
Context {P : Params}.
Context {St : Type}.
Variable R : ra_impl St.
Variable k : kind.
Definition keeps_map {A} (f : M (gz St) A) : Prop :=
  forall z, match f z with Ok _ z' | Panic _ z' => gz_map z' = gz_map z | _ => True end.

Lemma km_ret {A} (x : A) : keeps_map (ret x). Proof. intros z. reflexivity. Qed.
Lemma km_bind {A B} (f : M (gz St) A) (g : A -> M (gz St) B) : keeps_map f -> (forall x, keeps_map (g x)) -> keeps_map (bind f g).
Proof.
  intros Hf Hg z. unfold bind. specialize (Hf z). destruct (f z) as [x z'|p z'| | |]; auto.
  specialize (Hg x z'). destruct (g x z'); auto; congruence.
Qed.
Lemma km_panics {A} p : keeps_map (@panics (gz St) A p). Proof. intros z. reflexivity. Qed.
Lemma km_ub {A} : keeps_map (@ub (gz St) A). Proof. intros z. exact Logic.I. Qed.
Lemma km_gets {A} (f : gz St -> A) : keeps_map (gets f). Proof. intros z. reflexivity. Qed.
Lemma km_lift {A} (f : M St A) : keeps_map (glift f). Proof. intros z. unfold glift. destruct (f (gz_st z)); auto. Qed.
Lemma km_catch {A} (f : M (gz St) A) : keeps_map f -> keeps_map (g_catch f).
Proof. intros H z. unfold g_catch. specialize (H z). destruct (f z); auto. Qed.

Ltac kmx tac := repeat first
  [ tac | apply km_ret | apply km_ub | apply km_gets | apply km_panics | apply km_lift
  | match goal with |- keeps_map (bind _ _) => apply km_bind; [|intros ?] end | assumption
  | match goal with
    | |- keeps_map (if ?b then _ else _) => destruct b
    | |- keeps_map (match ?x with _ => _ end) => destruct x
    end ].
Ltac km := kmx fail.
Lemma km_add a b : keeps_map (add_u a b). Proof. unfold add_u. km. Qed.
Lemma km_sub a b : keeps_map (sub_u a b). Proof. unfold sub_u. km. Qed.
Lemma km_dassert (c : M (gz St) bool) : keeps_map c -> keeps_map (dassert c). Proof. intros H. unfold dassert. km. Qed.
Lemma km_is_aligned a b : keeps_map (is_aligned_to a b).
Proof. unfold is_aligned_to. kmx ltac:(first [apply km_dassert|apply km_sub]). Qed.
Lemma km_pos_for pm a : keeps_map (pos_for_addr pm a).
Proof. unfold pos_for_addr, addr_n. kmx ltac:(first [apply km_sub|apply km_add]). Qed.
Lemma km_addr a : keeps_map (addr_from_ref k a). Proof. unfold addr_from_ref. km. Qed.
Lemma km_addr_off a o : keeps_map (addr_from_ref_offset k a o). Proof. unfold addr_from_ref_offset. kmx ltac:(apply km_add). Qed.
Lemma km_load m a : keeps_map (load_word m a). Proof. unfold load_word. km. Qed.
Lemma km_const {A} (o : option A) : keeps_map (const_or o). Proof. unfold const_or. km. Qed.
Lemma km_set_ptrs p : keeps_map (g_set_ptrs (St := St) p). Proof. intros z. reflexivity. Qed.

Lemma km_overwrite_ptr q t : keeps_map (g_overwrite_ptr R k q t).
Proof.
  assert (HC : keeps_map (g_capacity R)) by apply km_gets.
  unfold g_overwrite_ptr. destruct k eqn:Ek; try apply km_ub.
  - unfold g_po_overwrite_ptr. kmx ltac:(first [apply km_dassert|apply km_is_aligned|apply km_sub]).
  - unfold g_co_overwrite_ptr, g_get_ptrs.
    kmx ltac:(first [apply km_dassert|apply km_is_aligned|apply km_sub|apply km_add|apply km_set_ptrs]).
Qed.
Lemma km_push s a : keeps_map (g_ser_push_slice R k s a).
Proof.
  pose proof km_overwrite_ptr as HO.
  unfold g_ser_push_slice, g_pw_push_slice, g_push_and_process_slice, g_push_raw_slice, g_get_map in *.
  destruct k eqn:Ek; kmx ltac:(first [apply km_pos_for|apply HO]).
Qed.
Lemma km_overwrite a l d : keeps_map (g_overwrite R k a l d).
Proof. unfold g_overwrite, g_do_overwrite, g_get_map. destruct k; kmx ltac:(apply km_pos_for). Qed.
Lemma km_ow f : keeps_map f -> keeps_map (g_overwrite_with k f). Proof. intros H. unfold g_overwrite_with. destruct k; km. Qed.
Lemma km_elems n f : forall a sz, (forall x, keeps_map (f x)) -> keeps_map (g_for_elems n a sz f).
Proof. induction n as [|n IH]; intros a sz H; cbn [g_for_elems]; [apply km_ret|apply km_bind; auto]. Qed.
Lemma km_fields fs f : forall a, (forall t x, keeps_map (f t x)) -> keeps_map (g_for_fields fs a f).
Proof. induction fs as [|[off t] fs IH]; intros a H; cbn [g_for_fields]; [apply km_ret|apply km_bind; auto]. Qed.
Lemma km_empty vo d a : keeps_map (g_overwrite_empty R k vo d a).
Proof. unfold g_overwrite_empty. cbn zeta. kmx ltac:(first [apply km_addr|apply km_addr_off|apply km_overwrite]). Qed.

(** PureCopySerializer has no mapping. *)
Lemma km_pps s a f : k = PureCopy -> keeps_map f -> keeps_map (g_push_and_process_slice R k s a f).
Proof. intros -> H. cbn [g_push_and_process_slice]. unfold g_push_raw_slice. km. Qed.
Ltac km3 := kmx ltac:(idtac; match goal with
  | |- keeps_map (g_overwrite_with _ _) => apply km_ow
  | |- keeps_map (load_word _ _) => apply km_load
  | |- keeps_map (addr_from_ref _ _) => apply km_addr
  | |- keeps_map (addr_from_ref_offset _ _ _) => apply km_addr_off
  | |- keeps_map (const_or _) => apply km_const
  | |- keeps_map (g_overwrite _ _ _ _ _) => apply km_overwrite
  | |- keeps_map (g_overwrite_empty _ _ _ _ _) => apply km_empty
  | |- keeps_map (g_push_and_process_slice _ _ _ _ _) => apply km_pps; [assumption|]
  | |- keeps_map (g_for_elems _ _ _ _) => apply km_elems; intros
  | |- keeps_map (g_for_fields _ _ _) => apply km_fields; intros
  | |- keeps_map (g_ser_push_slice _ _ _ _) => apply km_push
  end).
Lemma km_ser_data E m : k = PureCopy -> forall fuel t a, keeps_map (g_ser_data R k E m fuel t a).
Proof.
  intros HP. induction fuel as [|fuel IH]; intros t a; [intros z; exact Logic.I|]. cbn [g_ser_data].
  destruct (resolve E t); unfold g_ser_box, g_ser_vec, g_ser_string; km3; apply IH.
Qed.
Lemma km_run E m fuel : forall s a, (k = PureCopy \/ dives (CCall s) = false) -> keeps_map (g_run_step R k E m fuel a s).
Proof.
  fix IH 1. intros s a Hs. destruct s as [off l tp n body|off l tp n|l tp n|off l data|off t v|o|]; cbn [g_run_step].
  - destruct Hs as [Hs|Hs]; [|discriminate Hs].
    apply km_bind; [apply km_addr_off|intros ad]. apply km_bind; [|intros _; apply km_ret]. apply km_pps; [exact Hs|].
    induction body as [|s ss IHs]; [apply km_ret|]. apply km_bind; [apply IH; left; exact Hs|intros _; exact IHs].
  - km3.
  - apply km_bind; [apply km_lift|intros _; apply km_ret].
  - km3.
  - destruct Hs as [Hs|Hs]; [apply km_ser_data; exact Hs|discriminate Hs].
  - intros z. unfold g_store_call. destruct (g_run_op (r_st R) o (gz_st z)); reflexivity || exact Logic.I.
  - apply km_panics.
Qed.
Lemma c_go E m fuel a : forall cs, (fix go (cs : list cstep) : M (gz St) unit :=
            match cs with [] => ret tt | c :: cs' => c_run_step R k E m fuel a c ;;; go cs' end) cs
          = c_run_steps R k E m fuel a cs.
Proof. induction cs as [|c cs IH]; cbn; [reflexivity|]. rewrite IH. reflexivity. Qed.
Lemma c_run_push E m fuel a off l tp n body :
  c_run_step R k E m fuel a (CPush off l tp n body) =
  (ad <- addr_from_ref_offset k a off ;;
   g_push_and_process_slice R k (slice_at m l tp n) ad (c_run_steps R k E m fuel tp body) ;;; ret tt).
Proof. cbn [c_run_step]. rewrite c_go. reflexivity. Qed.
Lemma c_run_try E m fuel a restore body :
  c_run_step R k E m fuel a (CTry restore body) =
  (before <- gets gz_map ;; g_catch (c_run_steps R k E m fuel a body) ;;; if restore then g_set_map before else ret tt).
Proof. cbn [c_run_step]. rewrite c_go. reflexivity. Qed.

Lemma km_restored {A} (f : M (gz St) A) : keeps_map (before <- gets gz_map ;; g_catch f ;;; g_set_map before).
Proof. intros z. unfold bind, gets, g_catch. destruct (f z); reflexivity || exact Logic.I. Qed.
Lemma km_c_run E m fuel : forall c a, (k = PureCopy \/ dives c = false) -> keeps_map (c_run_step R k E m fuel a c).
Proof.
  fix IH 1. intros c a Hc. destruct c as [s|off l tp n body|restore body].
  - cbn [c_run_step]. apply km_run. exact Hc.
  - destruct Hc as [Hc|Hc]; [|discriminate Hc]. cbn [c_run_step].
    apply km_bind; [apply km_addr_off|intros ad]. apply km_bind; [|intros _; apply km_ret]. apply km_pps; [exact Hc|].
    induction body as [|c cs IHs]; [apply km_ret|]. apply km_bind; [apply IH; left; exact Hc|intros _; exact IHs].
  - cbn [c_run_step]. destruct restore; [apply km_restored|].
    apply km_bind; [apply km_gets|intros before]. apply km_bind; [apply km_catch|intros _; apply km_ret].
    induction body as [|c cs IHs]; [apply km_ret|].
    apply km_bind; [apply IH; destruct Hc as [Hc|Hc]; [auto|right; cbn in Hc; apply Bool.orb_false_iff in Hc; tauto]|intros _].
    apply IHs. destruct Hc as [Hc|Hc]; [auto|right; cbn in Hc |- *; apply Bool.orb_false_iff in Hc; tauto].
Qed.
Lemma km_c_runs E m fuel a : forall cs, (k = PureCopy \/ existsb dives cs = false) -> keeps_map (c_run_steps R k E m fuel a cs).
Proof.
  induction cs as [|c cs IH]; intros Hc; [apply km_ret|]. cbn [c_run_steps existsb] in *. rewrite Bool.orb_false_iff in Hc.
  apply km_bind; [apply km_c_run|intros _; apply IH]; tauto.
Qed.
End Keeps.

(** ** Pieces of a serialization that may end at any later position *)
Scheme cstep_ok_mut := Minimality for cstep_ok Sort Prop
  with csteps_ok_mut := Minimality for csteps_ok Sort Prop.

Section CatchFacts.
Context {P : Params}.
Context {St : Type}.
Variable R : ra_impl St.
Hypothesis C : cfg_ok.
Variable inv : St -> Prop.
Variable contents : St -> mem.
Variable empties : bool.
Hypothesis K : keeps_contract (r_st R) inv contents empties.
Hypothesis KP : reserve_keeps_pos (r_st R) inv.
Variable E : tenv.
Hypothesis HE : wf_env E.
Variable m : mem.
Variable fuel : nat.
Variable k : kind.
Hypothesis HS : storage_for k R inv contents.

Ltac cfg :=
  pose proof (c_SA_pos C); pose proof (c_MVA_pos C); pose proof (c_VA_pos C);
  pose proof (c_VA_MVA C); pose proof (c_MVA_SA C); pose proof (c_MAXC C);
  pose proof (c_MVA_le_MAXC C); pose proof (c_sum C); pose proof (c_umod C);
  pose proof (c_SA_lt_imax C); pose proof (pW_vals (c_machine C)).

Notation I := (r_st R).
Notation gpos z := (i_pos (r_st R) (gz_st z)).
Notation gbuf z := (contents (gz_st z)).
Notation ginv := (GenSerFacts.ginv R inv contents).
Notation gat := (GenSerFacts.gat R inv contents).
Definition refused (lo hi : N) : Prop := exists x, refused_within I inv lo hi x.
Notation cimage := (c_image k E m refused).
Notation cimages := (c_images k E m refused).
Notation cregion := (c_region k E m refused).

(** The reason for a panic, at positions from [lo] to [hi]. *)
Definition why (own : bool) (calls : list step) (lo hi : N) : Prop := own = true \/ hit E refused calls lo hi.
Lemma why_later own calls lo lo' hi : lo <= lo' -> why own calls lo' hi -> why own calls lo hi.
Proof. intros H [X|(s & b & H1 & H2 & H3 & H4)]; [left; exact X|right]. exists s, b. ands; auto. lia. Qed.
Lemma why_in (own own' : bool) calls calls' lo hi : (own = true -> own' = true) -> incl calls calls' -> why own calls lo hi -> why own' calls' lo hi.
Proof. intros Ho Hi [X|(s & b & H1 & H2)]; [left; auto|right]. exists s, b. auto. Qed.
Lemma refused_why own calls s lo hi : In s calls -> lo <= hi -> refused lo (step_end E lo s) -> why own calls lo hi.
Proof. intros H1 H2 H3. right. exists s, lo. ands; auto. lia. Qed.

Definition cat (z : gz St) (G : ptrlist) (F : N -> Prop) (p a : N) (b : bool) : Prop :=
  ginv k z G /\
  (forall i, F i -> p <= i /\ i < gpos z /\ gbuf z i = m (a + (i - p))) /\
  (forall q t, In (q, t) G -> forall i, q <= i -> i < q + pW -> ~ F i) /\
  (tracking k = true -> b = true -> pm_in (gz_map z) <= a /\ p = a - pm_in (gz_map z) + pm_out (gz_map z)).

Definition cdone (W : N -> N -> Prop) (z : gz St) (G : ptrlist) (F : N -> Prop) (b : bool)
    (X : N -> N -> mem -> Prop) {A} (o : outcome (gz St) A) : Prop :=
  match o with
  | Ok _ z' => exists G',
      ginv k z' (G ++ G') /\ (tracking k = true -> b = true -> gz_map z' = gz_map z) /\
      gpos z <= gpos z' /\ gpos z' <= MAXC /\
      (forall q t, In (q, t) G' ->
         (forall i, q <= i -> i < q + pW -> F i) \/ (gpos z <= q /\ q + pW <= gpos z')) /\
      (forall i, i < gpos z -> ~ F i -> gbuf z' i = gbuf z i) /\
      (forall B M, (MVA | B) -> B + gpos z' <= umod -> gfits_mem R contents z z' (G ++ G') F B M -> X (gpos z') B M)
  | Panic e z' =>
      W (gpos z) (gpos z') /\ GenSpec.ready I inv (gz_st z') /\ gpos z <= gpos z' /\
      (forall i, i < gpos z -> ~ F i -> gbuf z' i = gbuf z i) /\
      (exists G', ginv k z' (G ++ G') /\
         forall q t, In (q, t) G' -> (forall i, q <= i -> i < q + pW -> F i) \/ gpos z <= q)
  | Abort => True
  | UB | OutOfFuel => False
  end.

Lemma gat_cat z G F p a b : gat k z G F m p a -> cat z G F p a b.
Proof. intros (A & B & D & H). unfold cat. ands; auto. Qed.
Lemma cat_gat z G F p a b : cat z G F p a b -> (tracking k = true -> b = true) -> gat k z G F m p a.
Proof. intros (A & B & D & H) Hb. unfold GenSerFacts.gat. ands; auto. Qed.
Lemma cat_sub z G F (F' : N -> Prop) p a b : cat z G F p a b -> (forall i, F' i -> F i) -> cat z G F' p a b.
Proof. intros (A & B & D & H) Hs. unfold cat. ands; auto. intros q t Hin i H1 H2 HF. eapply D; eauto. Qed.

Lemma cdone_imp (W W' : N -> N -> Prop) z G (F F' : N -> Prop) (b b' : bool) (X X' : N -> N -> mem -> Prop) {A} (o : outcome (gz St) A) :
  cdone W z G F b X o -> (forall hi, gpos z <= hi -> W (gpos z) hi -> W' (gpos z) hi) -> (forall i, F i <-> F' i) -> (b' = true -> b = true) ->
  (forall e B M, (MVA | B) -> gpos z <= e -> B + e <= umod -> X e B M -> X' e B M) ->
  cdone W' z G F' b' X' o.
Proof.
  intros H HW HF Hb HX. destruct o as [x z'|e z'| | |]; auto; cbn in *.
  - destruct H as (G' & H1 & H2 & H3 & H4 & H5 & H6 & H7). exists G'. ands; auto.
    + intros q t Hin. destruct (H5 q t Hin) as [Hx|Hx]; [left; intros i ? ?; apply HF; auto|right; exact Hx].
    + intros i Hi Hn. apply H6; [exact Hi|]. intros Hx. apply Hn, HF, Hx.
    + intros B M HB Hle Hfit. apply HX; auto. apply H7; auto. intros i Hi. apply Hfit.
      destruct Hi as [Hi|Hi]; [left; apply HF, Hi|auto].
  - destruct H as (H1 & H2 & H3 & H4 & G' & H5 & H6). ands; auto.
    + intros i Hi Hn. apply H4; [exact Hi|]. intros Hx. apply Hn, HF, Hx.
    + exists G'. split; [exact H5|]. intros q t Hin. destruct (H6 q t Hin) as [Hx|Hx]; [left; intros i ? ?; apply HF; auto|auto].
Qed.

(** A piece whose end is known is one. *)
Lemma gdone_cdone {UP : Prop} z G F ps (X : N -> mem -> Prop) {A} (o : outcome (gz St) A) :
  gdone R inv contents (UP := UP) k z G F ps X o ->
  cdone (fun lo hi => UP \/ refused lo (end_pos lo ps)) z G F true (fun e B M => e = end_pos (gpos z) ps /\ X B M) o.
Proof.
  intros H. destruct o as [x z'|e z'| | |]; auto; cbn in *.
  - destruct H as (G' & H1 & H2 & H3 & H4 & H5 & H6 & H7 & H8). exists G'. ands; auto.
  - destruct H as (H1 & H2 & H3 & H4 & H5). ands; auto.
    destruct H1 as [H1|[H1 _]]; [right; exists e; exact H1|left; exact H1].
Qed.

Lemma cdone_ret W z G F p a b :
  cat z G F p a b -> cdone W z G F true (fun e B M => e = gpos z /\ copied m a p F B M) (ret tt z).
Proof.
  intros (A & B & D & H). cbn. exists []. rewrite app_nil_r.
  pose proof (ready_le R inv contents empties K _ (ginv_ok _ _ _ _ _ _ A)). ands; auto; try lia.
  - intros q t [].
  - intros B' M HB Hle Hfit. split; [reflexivity|]. intros i HF. rewrite Hfit by auto.
    rewrite overlay_none; [apply B; exact HF|].
    intros q t Hin. destruct (covers i (q, t)) eqn:Ec; [|reflexivity].
    apply covers_true in Ec. exfalso. eapply D; try eassumption; lia.
Qed.

Lemma cdone_seq (W1 W2 : N -> N -> Prop) z G F1 F2 b b1 b2 (X1 : N -> N -> mem -> Prop) (X2 : N -> N -> N -> mem -> Prop) p a {A}
    (f1 : M (gz St) A) (f2 : A -> M (gz St) unit) :
  cat z G (fun i => F1 i \/ F2 i) p a b ->
  (forall i, F1 i -> ~ F2 i) ->
  (forall lo lo' hi, lo <= lo' -> W2 lo' hi -> W2 lo hi) ->
  cdone W1 z G F1 b1 X1 (f1 z) ->
  (forall x z1 G1, f1 z = Ok x z1 -> cat z1 (G ++ G1) F2 p a (b && b1) ->
     cdone W2 z1 (G ++ G1) F2 b2 (X2 (gpos z1)) (f2 x z1)) ->
  cdone (fun lo hi => W1 lo hi \/ W2 lo hi) z G (fun i => F1 i \/ F2 i) (b1 && b2) (fun e B M => exists e1, X1 e1 B M /\ X2 e1 e B M) (bind f1 f2 z).
Proof.
  intros (Hz & Hcp & Hnp & Hmap) Hdis HWl H1 H2. cfg. unfold bind.
  destruct (f1 z) as [x z1|e z1| | |] eqn:Ef; auto.
  2:{ cbn in *. destruct H1 as (B2 & B3 & B4 & B5 & G1 & B6 & B7). ands; auto.
      exists G1. split; [exact B6|]. intros q t Hin. destruct (B7 q t Hin) as [Hx|Hx]; [left; auto|right; exact Hx]. }
  cbn in H1. destruct H1 as (G1 & I1 & I2 & I4 & I5 & I6 & I7 & I10).
  assert (Hr2 : cat z1 (G ++ G1) F2 p a (b && b1)).
  { unfold cat. ands; auto.
    - intros i HF. destruct (Hcp i (or_intror HF)) as (C1 & C2 & C3). ands; [lia|lia|].
      rewrite I7; [exact C3|lia|]. intros HF1. apply (Hdis i HF1 HF).
    - intros q t Hin i Hi1 Hi2 HF. apply in_app_or in Hin. destruct Hin as [Hin|Hin].
      + eapply Hnp; eauto.
      + destruct (I6 q t Hin) as [Hx|[Hx1 Hx2]].
        * apply (Hdis i); auto.
        * destruct (Hcp i (or_intror HF)) as (C1 & C2 & C3). lia.
    - intros Hk Hb. apply andb_prop in Hb. destruct Hb as [Hb1 Hb2]. rewrite (I2 Hk Hb2). auto. }
  specialize (H2 x z1 G1 eq_refl Hr2).
  destruct (f2 x z1) as [y z2|e z2| | |]; auto.
  - cbn in H2. destruct H2 as (G2 & J1 & J2 & J4 & J5 & J6 & J7 & J10).
    cbn. exists (G1 ++ G2). rewrite app_assoc. ands; auto; try lia.
    + intros Hk Hb. apply andb_prop in Hb. destruct Hb as [Hb1 Hb2]. rewrite J2 by auto. auto.
    + intros q t Hin. apply in_app_or in Hin. destruct Hin as [Hin|Hin].
      * destruct (I6 q t Hin) as [Hx|Hx]; [left; auto|right; lia].
      * destruct (J6 q t Hin) as [Hx|Hx]; [left; auto|right; lia].
    + intros i Hi HF. rewrite J7 by (try lia; tauto). apply I7; [lia|tauto].
    + intros B M HB Hle Hfit. exists (gpos z1). split.
      * apply I10; [exact HB|lia|]. intros i Hi.
        rewrite Hfit.
        2:{ destruct Hi as [Hi|Hi]; [left; auto|right; lia]. }
        assert (HnF2 : ~ F2 i).
        { destruct Hi as [Hi|Hi]; [apply Hdis; exact Hi|].
          intros HF. destruct (Hcp i (or_intror HF)) as (C1 & C2 & C3). lia. }
        assert (i < gpos z1).
        { destruct Hi as [Hi|Hi]; [|lia]. destruct (Hcp i (or_introl Hi)); lia. }
        rewrite overlay_app_r.
        -- apply overlay_buf. apply J7; auto.
        -- intros q t Hin. destruct (covers i (q, t)) eqn:Ec; [|reflexivity].
           apply covers_true in Ec. exfalso.
           destruct (J6 q t Hin) as [Hx|Hx]; [|lia]. apply HnF2. apply Hx; lia.
      * apply J10; [exact HB|lia|]. intros i Hi. apply Hfit.
        destruct Hi as [Hi|Hi]; [left; auto|right; lia].
  - cbn in H2 |- *. destruct H2 as (B2 & B3 & B5 & B6 & G2 & B7 & B8). ands; auto; try lia.
    + right. apply (HWl (gpos z) (gpos z1)); [exact I4|exact B2].
    + intros i Hi HF. rewrite B6 by (try lia; tauto). apply I7; [lia|tauto].
    + exists (G1 ++ G2). rewrite app_assoc. split; [exact B7|].
      intros q t Hin. apply in_app_or in Hin. destruct Hin as [Hin|Hin].
      * destruct (I6 q t Hin) as [Hx|Hx]; [left; auto|right; lia].
      * destruct (B8 q t Hin) as [Hx|Hx]; [left; auto|right; lia].
Qed.

(** ** The places *)
Definition cF (p : N) (c : cstep) (i : N) : Prop := p <= i /\ c_touched E c (i - p).
Definition cFs (p : N) (cs : list cstep) (i : N) : Prop := exists c, In c cs /\ cF p c i.

Lemma any_in cs i :
  (fix any (cs : list cstep) : Prop := match cs with [] => False | c :: cs' => c_touched E c i \/ any cs' end) cs <->
  exists c, In c cs /\ c_touched E c i.
Proof.
  induction cs as [|c cs IH]; [split; [intros []|intros (c & [] & _)]|]. rewrite IH. split.
  - intros [H|(c' & H1 & H2)]; [exists c; split; [left; reflexivity|exact H]|exists c'; split; [right; exact H1|exact H2]].
  - intros (c' & [<-|H1] & H2); [auto|]. right. eauto.
Qed.
Lemma cF_try p restore body i : cF p (CTry restore body) i <-> cFs p body i.
Proof.
  unfold cF, cFs. cbn [c_touched]. rewrite any_in. split.
  - intros (H1 & c & H2 & H3). exists c. split; [exact H2|]. split; [exact H1|exact H3].
  - intros (c & H1 & H2 & H3). split; [exact H2|]. exists c. split; [exact H1|exact H3].
Qed.
Lemma touched_dec s i : touched E s i \/ ~ touched E s i.
Proof. unfold touched. destruct (touch E s) as [[off n]|]; [lia|auto]. Qed.
Lemma c_touched_dec : forall c i, c_touched E c i \/ ~ c_touched E c i.
Proof.
  fix IH 1. intros [s|off l tp n body|restore body] i.
  - apply touched_dec.
  - cbn. lia.
  - cbn [c_touched]. induction body as [|c cs IHs]; [right; intros []|].
    destruct (IH c i) as [H|H]; [left; left; exact H|]. destruct IHs as [H'|H']; [left; right; exact H'|right; tauto].
Qed.
Lemma cFs_dec p cs i : cFs p cs i \/ ~ cFs p cs i.
Proof.
  unfold cFs, cF. induction cs as [|c cs IH]; [right; intros (c & [] & _)|].
  destruct IH as [(c' & H1 & H2)|H]; [left; exists c'; split; [right; exact H1|exact H2]|].
  destruct (N.le_gt_cases p i) as [Hp|Hp].
  - destruct (c_touched_dec c (i - p)) as [Hc|Hc]; [left; exists c; split; [left; reflexivity|auto]|].
    right. intros (c' & [<-|H1] & H2); [tauto|]. apply H. eauto.
  - right. intros (c' & _ & H2 & _). lia.
Qed.

Notation cok := (cstep_ok empties k E m fuel).
Notation csok := (csteps_ok empties k E m fuel).

Lemma c_inside : forall size al a cs, csok size al a cs -> forall c i, In c cs -> c_touched E c i -> i < size.
Proof.
  apply (csteps_ok_mut P empties k E m fuel (fun size _ _ c => forall i, c_touched E c i -> i < size)
           (fun size _ _ cs => forall c i, In c cs -> c_touched E c i -> i < size)).
  - intros size al a s Hs _ i Hi. cbn in Hi.
    assert (Hss : steps_ok E m fuel size al a [s]) by (constructor; [exact Hs|intros s' j []|constructor]).
    exact (touched_inside E m fuel size al a [s] Hss s i (or_introl eq_refl) Hi).
  - intros size al a off l tp n body Hoff _ _ _ _ _ _ i Hi. cbn in Hi. lia.
  - intros size al a restore body _ IH i Hi. cbn [c_touched] in Hi. apply any_in in Hi. destruct Hi as (c & H1 & H2). eauto.
  - intros size al a c i [].
  - intros size al a c cs _ IH1 _ _ _ IH2 c' i [<-|Hin] Hi; eauto.
Qed.

(** ** A process with a given end *)
(** With [ok], one that returns, otherwise one that panics. *)
Definition guard (ok : bool) (t : N) (f : M (gz St) unit) : M (gz St) unit := fun z =>
  match f z with
  | Ok x z' => if ok && (gpos z' =? t) then Ok x (mkGZ (gz_st z') (gz_map z) (gz_ptrs z')) else Abort
  | Panic _ z' => if negb ok && (gpos z' =? t) then Panic PUser z' else Abort
  | Abort => Abort
  | UB => UB
  | OutOfFuel => OutOfFuel
  end.
Definition guarded {A} (ok : bool) (t : N) (o o' : outcome (gz St) A) : Prop :=
  match o with
  | Ok x z' => ok = true -> gpos z' = t -> o' = Ok x z'
  | Panic _ z' => ok = false -> gpos z' = t -> exists e', o' = Panic e' z'
  | UB => o' = UB
  | OutOfFuel => o' = OutOfFuel
  | Abort => True
  end.
Lemma guarded_same {A} ok t (o : outcome (gz St) A) : guarded ok t o o.
Proof. destruct o; cbn; eauto. Qed.
Lemma guarded_bind {A B} ok t (f : M (gz St) A) (g g' : A -> M (gz St) B) z :
  (forall x z', guarded ok t (g x z') (g' x z')) -> guarded ok t (bind f g z) (bind f g' z).
Proof. intros H. unfold bind. destruct (f z); cbn; eauto. Qed.
Lemma guarded_map {A} ok t f pm (x : A) z :
  guarded ok t (bind f (fun _ => bind (g_set_map pm) (fun _ => ret x)) z)
            (bind (guard ok t f) (fun _ => bind (g_set_map pm) (fun _ => ret x)) z).
Proof.
  unfold bind, guard. destruct (f z) as [u z'|e z'| | |]; try (cbn; eauto; fail).
  - cbn. intros -> Ht. rewrite (proj2 (N.eqb_eq _ _) Ht). reflexivity.
  - cbn. intros -> Ht. rewrite (proj2 (N.eqb_eq _ _) Ht). cbn. eauto.
Qed.
Lemma guarded_keep {A} ok t f (x : A) z : keeps_map f ->
  guarded ok t (bind f (fun _ => ret x) z) (bind (guard ok t f) (fun _ => ret x) z).
Proof.
  intros Hf. specialize (Hf z). unfold bind, guard. destruct (f z) as [u z'|e z'| | |]; try (cbn; eauto; fail).
  - cbn. intros -> Ht. rewrite (proj2 (N.eqb_eq _ _) Ht). rewrite <- Hf. destruct z'; reflexivity.
  - cbn. intros -> Ht. rewrite (proj2 (N.eqb_eq _ _) Ht). cbn. eauto.
Qed.
Lemma guarded_pap ok t sl ad f z : (k = PureCopy -> keeps_map f) ->
  guarded ok t (g_push_and_process_slice R k sl ad f z) (g_push_and_process_slice R k sl ad (guard ok t f) z).
Proof.
  intros Hf. unfold g_push_and_process_slice. clear HS. destruct k.
  all: repeat (apply guarded_bind; intros ? ?).
  1: apply guarded_keep; auto.
  all: apply guarded_map.
Qed.

(** The end of a guarded process, as an allocation. *)
Definition stretch (a b : N) : list (layout * N) := if a =? b then [] else [(mkLayout 1 1, b - a)].
Lemma stretch_end a b : (VA | a) -> (VA | b) -> a <= b -> end_pos a (stretch a b) = b.
Proof.
  intros Ha Hb Hle. cfg. unfold stretch. destruct (N.eqb_spec a b) as [->|Hne]; [reflexivity|].
  cbn [end_pos]. unfold push_end, push_start. cbn [l_size l_align]. rewrite N.mul_1_l.
  replace (N.max 1 VA) with VA by lia. rewrite (round_up_id a VA) by (auto; lia).
  replace (a + (b - a)) with b by lia. apply round_up_id; [lia|exact Hb].
Qed.

(** ** The calls *)
Definition c_step_goal (size al a : N) (c : cstep) : Prop :=
  forall z G p b, enclosing size al a p -> cat z G (cF p c) p a b ->
  (tracking k = true -> b = false -> placed c = false) ->
  cdone (why (c_may_panic c) (exposed c)) z G (cF p c) (negb (unsettles c))
    (fun e B M => cimage M B p a (gpos z) c e) (c_run_step R k E m fuel a c z).
Definition c_steps_goal (size al a : N) (cs : list cstep) : Prop :=
  forall z G p b, enclosing size al a p -> cat z G (cFs p cs) p a b ->
  (tracking k = true -> b = false -> existsb placed cs = false) ->
  cdone (why (existsb c_may_panic cs) (flat_map exposed cs)) z G (cFs p cs) (negb (existsb unsettles cs))
    (fun e B M => cimages M B p a (gpos z) cs e) (c_run_steps R k E m fuel a cs z).

(** A whole region: the bytes no call is for are kept. *)
Lemma c_region_done size al a cs z G p :
  csok size al a cs -> c_steps_goal size al a cs -> enclosing size al a p ->
  gat k z G (seg p size) m p a ->
  cdone (why (existsb c_may_panic cs) (flat_map exposed cs)) z G (seg p size) false
    (fun e B M => cregion M B p a size (gpos z) cs e) (c_run_steps R k E m fuel a cs z).
Proof.
  intros Hok Hs He Hr. cfg.
  assert (Hsub : forall i, cFs p cs i -> seg p size i).
  { intros i (c & Hi & Hp & Ht). pose proof (c_inside _ _ _ _ Hok c _ Hi Ht). unfold seg. lia. }
  apply (gat_cat _ _ _ _ _ true) in Hr.
  assert (Hr2 : cat z G (fun i => cFs p cs i \/ (seg p size i /\ ~ cFs p cs i)) p a true).
  { eapply cat_sub; [exact Hr|]. intros i [Hi|[Hi _]]; auto. }
  pose proof (Hs z G p true He ltac:(eapply cat_sub; [exact Hr|exact Hsub]) ltac:(discriminate)) as X1.
  pose proof (cdone_seq _ (fun _ _ => False) z G (cFs p cs) (fun i => seg p size i /\ ~ cFs p cs i) true _ true _
    (fun e1 e B M => e = e1 /\ copied m a p (fun i => seg p size i /\ ~ cFs p cs i) B M) p a
    (c_run_steps R k E m fuel a cs) (fun _ => ret tt) Hr2 ltac:(intros i Hi [_ Hn]; auto) ltac:(auto) X1) as X2.
  specialize (X2 ltac:(intros x z1 G1 _ Hr1; eapply cdone_ret; exact Hr1)).
  assert (Hv : bind (c_run_steps R k E m fuel a cs) (fun _ => ret tt) z = c_run_steps R k E m fuel a cs z).
  { unfold bind. destruct (c_run_steps R k E m fuel a cs z) as [[] z'|? ?| | |]; reflexivity. }
  rewrite Hv in X2. eapply cdone_imp; [exact X2| | |discriminate|].
  - tauto.
  - intros i. destruct (cFs_dec p cs i) as [Ht|Ht]; split; intros Hx; try tauto. destruct Hx as [Hx|Hx]; [auto|tauto].
  - cbn beta. intros e B M HB _ _ (e1 & HI & -> & HC). constructor; [|exact HI].
    intros i Hi Hno. specialize (HC (p + i)). rewrite HC.
    + f_equal. lia.
    + split; [unfold seg; lia|]. intros (c & Hs1 & Hs2 & Hs3).
      replace (p + i - p) with i in Hs3 by lia. apply (Hno c Hs1 Hs3).
Qed.

(** A push whose closure does what a region does. *)
Lemma c_push_done (W : N -> N -> Prop) size al a off l tp n z G p (process : M (gz St) unit) (Rc : N -> N -> mem -> Prop) :
  plain_slice l n = true ->
  enclosing size al a p -> off + pW <= size -> (pW | off) -> (pW | al) -> slice_ok l tp n ->
  (forall hi, gpos z <= hi -> refused (gpos z) (slice_end (gpos z) l n) -> W (gpos z) hi) ->
  (forall lo lo' hi, lo <= lo' -> W lo' hi -> W lo hi) ->
  gat k z G (seg (p + off) pW) m p a ->
  (k = PureCopy -> keeps_map process) ->
  (forall z1 G1, gpos z1 = slice_end (gpos z) l n ->
     gat k z1 G1 (seg (slice_pos (gpos z) l) (l_size l * n)) m (slice_pos (gpos z) l) tp ->
     cdone W z1 G1 (seg (slice_pos (gpos z) l) (l_size l * n)) false Rc (process z1)) ->
  cdone W z G (seg (p + off) pW) true
    (fun e B M => points k m M B p a off l n (slice_pos (gpos z) l) /\ Rc e B M)
    (g_push_and_process_slice R k (slice_at m l tp n) (addr_of k (a + off)) process z).
Proof.
  intros Hpl He Hoff Hpo Hpa Hsl HW HWl Hr Hkm Hproc.
  assert (Hz : ginv k z G) by apply Hr.
  assert (Hse : gpos z <= slice_end (gpos z) l n).
  { unfold slice_end. destruct (l_size l =? 0); [lia|]. pose proof (push_end_ge C (gpos z) l n). pose proof (push_start_ge C (gpos z) l (proj1 (proj1 Hsl))). lia. }
  (* the same with the end given *)
  assert (HG : forall (ok : bool) (t : N), gdone R inv contents (UP := W (gpos z) t) k z G (seg (p + off) pW)
    (slice_list l n ++ if ok then stretch (slice_end (gpos z) l n) t else [])
    (fun B M => points k m M B p a off l n (slice_pos (gpos z) l) /\ Rc t B M)
    (g_push_and_process_slice R k (slice_at m l tp n) (addr_of k (a + off)) (guard ok t process) z)).
  { intros ok t. eapply g_push_done; eauto.
    intros z1 G1 Hz1 Hr1. specialize (Hproc z1 G1 Hz1 Hr1). unfold guard.
    destruct (process z1) as [u z2|e z2| | |]; auto.
    - destruct ok; [|exact Logic.I]. cbn [andb]. destruct (N.eqb_spec (gpos z2) t) as [<-|]; [|exact Logic.I].
      cbn in Hproc |- *. destruct Hproc as (G' & H1 & H2 & H3 & H4 & H5 & H6 & H7). exists G'. cbn [gz_st gz_map gz_ptrs]. ands; auto.
      rewrite <- Hz1. symmetry. apply stretch_end; [apply Hr1|apply H1|exact H3].
    - destruct ok; [exact Logic.I|]. cbn [andb negb]. destruct (N.eqb_spec (gpos z2) t) as [<-|]; [|exact Logic.I].
      cbn in Hproc |- *. destruct Hproc as (H1 & H2 & H3 & H4 & H5). ands; auto. right. split; [|reflexivity].
      apply (HWl (gpos z) (gpos z1)); [lia|exact H1]. }
  pose proof (fun ok t => guarded_pap ok t (slice_at m l tp n) (addr_of k (a + off)) process z Hkm) as HP.
  destruct (g_push_and_process_slice R k (slice_at m l tp n) (addr_of k (a + off)) process z) as [x z'|e z'| | |] eqn:Ep; try exact Logic.I.
  - specialize (HP true (gpos z') eq_refl eq_refl). specialize (HG true (gpos z')). rewrite HP in HG.
    cbn in HG |- *. destruct HG as (G' & H1 & H2 & H3 & H4 & H5 & H6 & H7 & H8). exists G'. ands; auto.
  - destruct (HP false (gpos z') eq_refl eq_refl) as [e' HP0]. specialize (HG false (gpos z')). rewrite HP0, app_nil_r in HG.
    cbn in HG |- *. destruct HG as (H1 & H2 & H3 & H4 & H5). ands; auto.
    destruct H1 as [H1|[H1 _]]; [|exact H1]. apply HW; [exact H3|]. exists e'. rewrite slice_list_end in H1. exact H1.
  - specialize (HG false 0). rewrite (HP false 0) in HG. exact HG.
  - specialize (HG false 0). rewrite (HP false 0) in HG. exact HG.
Qed.

Lemma gdone_run {UP : Prop} size al a s z G p b :
  proper empties s -> (may_panic s = true -> UP) -> step_ok E m fuel size al a s -> enclosing size al a p ->
  cat z G (cF p (CCall s)) p a b -> (tracking k = true -> b = false -> placed (CCall s) = false) ->
  gdone R inv contents (UP := UP) k z G (cF p (CCall s)) (step_allocs E s) (fun B M => image k E m M B p a (gpos z) s)
    (g_run_step R k E m fuel a s z).
Proof.
  intros Hp Hup Hs He Hr Hpl. cfg. assert (Hz : ginv k z G) by apply Hr.
  assert (Hplaced : placed (CCall s) = true ->
    gdone R inv contents (UP := UP) k z G (cF p (CCall s)) (step_allocs E s) (fun B M => image k E m M B p a (gpos z) s)
      (g_run_step R k E m fuel a s z)).
  { intros Hx.
    assert (Hg : gat k z G (cF p (CCall s)) m p a).
    { eapply cat_gat; [exact Hr|]. intros Hk. destruct b; [reflexivity|]. rewrite (Hpl Hk eq_refl) in Hx. discriminate. }
    assert (Hss : steps_ok E m fuel size al a [s]) by (constructor; [exact Hs|intros s' i []|constructor]).
    pose proof (g_all_goals (UP := UP) R C inv contents empties K KP E HE m fuel k HS size al a [s] Hss
                  ltac:(constructor; [exact Hp|constructor])
                  ltac:(cbn [existsb]; rewrite Bool.orb_false_r; exact Hup) z G p He) as HD.
    assert (HF : forall i, tFs E p [s] i <-> cF p (CCall s) i).
    { intros i. unfold tFs, cF. split.
      - intros (s' & [<-|[]] & Hi). apply tF_touched in Hi. exact Hi.
      - intros Hi. exists s. split; [left; reflexivity|]. apply tF_touched. exact Hi. }
    specialize (HD ltac:(eapply gat_eqF; [|exact Hg]; intros i; apply HF)).
    cbn [flat_map] in HD. rewrite app_nil_r in HD.
    assert (Hv : g_run_steps R k E m fuel a [s] z = g_run_step R k E m fuel a s z).
    { cbn [g_run_steps]. unfold bind. destruct (g_run_step R k E m fuel a s z) as [[] z'|? ?| | |]; reflexivity. }
    rewrite Hv in HD. eapply gdone_eqF; [exact HF| |exact HD].
    cbn beta. intros B M _ Hi. inversion Hi; subst; assumption. }
  assert (Hnone : (forall i, ~ touched E s i) -> forall i, False <-> cF p (CCall s) i).
  { intros Hn i. unfold cF. cbn. split; [intros []|intros [_ Hi]; exact (Hn _ Hi)]. }
  destruct s as [off l tp n body|off l tp n|l tp n|off l data|off t v|o|]; try (apply Hplaced; reflexivity).
  - (* raw push *)
    inversion Hs; subst. cbn [proper] in Hp. cbn [g_run_step step_allocs]. apply gdone_void.
    eapply gdone_eqF; [apply Hnone; intros i []| |eapply g_raw_done; eauto].
    cbn beta. intros B M _ Hi. constructor. exact Hi.
  - (* a storage call *)
    inversion Hs; subst. cbn [proper] in Hp. cbn [g_run_step step_allocs].
    eapply gdone_eqF; [apply Hnone; intros i []| |eapply g_store_done; eauto].
    cbn beta. intros B M _ Hi. constructor. exact Hi.
  - (* the implementation panics *)
    cbn. pose proof (ginv_ok R inv contents _ _ _ Hz). ands; auto; try lia.
    + right. auto.
    + exists []. rewrite app_nil_r. split; [exact Hz|intros q t []].
Qed.

Lemma c_all_goals : forall size al a cs, csok size al a cs -> c_steps_goal size al a cs.
Proof.
  apply (csteps_ok_mut P empties k E m fuel c_step_goal c_steps_goal).
  - (* a call *)
    intros size al a s Hs Hp z G p b He Hr Hpl. cbn [c_run_step c_may_panic unsettles].
    pose proof (gdone_cdone (UP := may_panic s = true) _ _ _ _ _ _ (gdone_run size al a s z G p b Hp (fun x => x) Hs He Hr Hpl)) as HD.
    assert (Hss : steps_ok E m fuel size al a [s]) by (constructor; [exact Hs|intros s' i []|constructor]).
    pose proof (steps_allocs_end C E m fuel size al a [s] Hss (gpos z) ltac:(apply Hr)) as He1.
    cbn [flat_map steps_end fold_left] in He1. rewrite app_nil_r in He1.
    eapply cdone_imp; [exact HD| |reflexivity|auto|].
    + cbn beta. intros hi Hhi [X|X]; [left; exact X|]. apply (refused_why _ _ s); [left; reflexivity|exact Hhi|].
      rewrite He1 in X. exact X.
    + cbn beta. intros e B M _ _ _ [-> HI]. rewrite He1. constructor. exact HI.
  - (* push and process *)
    intros size al a off l tp n body Hoff Hpo Hpa Hsl Hps Hb IH z G p b He Hr Hpl.
    rewrite c_run_push. pose proof He as (Ep & El & Ed & Eu).
    assert (HX : forall A (f : addr -> M (gz St) A), bind (addr_from_ref_offset k a off) f z = f (addr_of k (a + off)) z).
    { intros A f. apply g_addr_bind. pose proof (pW_vals (c_machine C)); lia. }
    rewrite HX. clear HX.
    assert (Hg : gat k z G (seg (p + off) pW) m p a).
    { eapply cat_gat.
      - eapply cat_sub; [exact Hr|]. unfold cF, seg. cbn. lia.
      - intros Hk. destruct b; [reflexivity|]. specialize (Hpl Hk eq_refl). discriminate. }
    pose proof (c_push_done (why (existsb c_may_panic body) (exposed (CPush off l tp n body))) size al a off l tp n z G p (c_run_steps R k E m fuel tp body)
      (fun e B M => cregion M B (slice_pos (gpos z) l) tp (l_size l * n) (slice_end (gpos z) l n) body e)
      Hps He Hoff Hpo Hpa Hsl
      ltac:(intros hi Hhi X; apply (refused_why _ _ (SPushPlain off l tp n)); [left; reflexivity|exact Hhi|exact X])
      ltac:(intros; eapply why_later; eassumption) Hg ltac:(intros Hk; apply km_c_runs; auto)) as HD.
    assert (HD2 : cdone (why (existsb c_may_panic body) (exposed (CPush off l tp n body))) z G (seg (p + off) pW) true
       (fun e B M => points k m M B p a off l n (slice_pos (gpos z) l) /\
          cregion M B (slice_pos (gpos z) l) tp (l_size l * n) (slice_end (gpos z) l n) body e)
       (g_push_and_process_slice R k (slice_at m l tp n) (addr_of k (a + off)) (c_run_steps R k E m fuel tp body) z)).
    { apply HD. intros z1 G1 Hz1 Hr1. rewrite <- Hz1.
      eapply cdone_imp; [eapply (c_region_done _ _ _ _ _ _ _ Hb IH); [|exact Hr1]| |reflexivity|auto|auto].
      2:{ intros hi _. apply why_in; [auto|]. intros s Hs. right. exact Hs. }
      destruct Hsl as (Hl & _ & Hum). unfold enclosing. ands; auto; try apply Hl.
      apply (slice_pos_align C), Hl. }
    clear HD. cbn [c_may_panic unsettles].
    assert (HD3 : cdone (why (existsb c_may_panic body) (exposed (CPush off l tp n body))) z G (cF p (CPush off l tp n body)) true
       (fun e B M => cimage M B p a (gpos z) (CPush off l tp n body) e)
       (g_push_and_process_slice R k (slice_at m l tp n) (addr_of k (a + off)) (c_run_steps R k E m fuel tp body) z)).
    { eapply cdone_imp; [exact HD2|auto| |auto|].
      - intros i. unfold cF, seg. cbn. lia.
      - cbn beta. intros e B M _ _ _ [X1 X2]. constructor; assumption. }
    unfold bind. destruct (g_push_and_process_slice R k (slice_at m l tp n) (addr_of k (a + off)) (c_run_steps R k E m fuel tp body) z); exact HD3.
  - (* catch_unwind *)
    intros size al a restore body Hb IH z G p b He Hr Hpl.
    specialize (IH z G p b He ltac:(eapply cat_sub; [exact Hr|intros i; apply cF_try]) Hpl).
    assert (Hkm : negb (unsettles (CTry restore body)) = true -> keeps_map (c_run_step R k E m fuel a (CTry restore body))).
    { intros Hu. apply km_c_run. right. destruct restore; [reflexivity|]. cbn in *. destruct (existsb dives body); [discriminate|reflexivity]. }
    assert (Hm : negb (unsettles (CTry restore body)) = true ->
      match c_run_step R k E m fuel a (CTry restore body) z with Ok _ z' => gz_map z' = gz_map z | _ => True end).
    { intros Hu. specialize (Hkm Hu z). destruct (c_run_step R k E m fuel a (CTry restore body) z); auto. }
    clear Hkm. rewrite c_run_try in *. cbn [c_may_panic].
    assert (HP : forall z1, gpos z <= gpos z1 -> (forall i, i < gpos z -> ~ cFs p body i -> gbuf z1 i = gbuf z i) ->
        (exists G', ginv k z1 (G ++ G') /\
          (forall q t, In (q, t) G' -> (forall i, q <= i -> i < q + pW -> cFs p body i) \/ gpos z <= q) /\
          (forall B M, (MVA | B) -> B + gpos z1 <= umod -> gfits_mem R contents z z1 (G ++ G') (cFs p body) B M ->
             cimage M B p a (gpos z) (CTry restore body) (gpos z1))) ->
        (negb (unsettles (CTry restore body)) = true -> (if restore then gz_map z else gz_map z1) = gz_map z) ->
        cdone (why false []) z G (cF p (CTry restore body)) (negb (unsettles (CTry restore body)))
          (fun e B M => cimage M B p a (gpos z) (CTry restore body) e)
          (Ok tt (if restore then mkGZ (gz_st z1) (gz_map z) (gz_ptrs z1) else z1))).
    { intros z1 H1 H2 (G' & H3 & H4 & H5) H6.
      assert (Hs : gz_st (if restore then mkGZ (gz_st z1) (gz_map z) (gz_ptrs z1) else z1) = gz_st z1) by (destruct restore; reflexivity).
      pose proof (ready_le R inv contents empties K _ (ginv_ok _ _ _ _ _ _ H3)).
      cbn [cdone]. exists G'. rewrite Hs. ands; auto; try lia.
      - destruct restore; [apply ginv_map|]; exact H3.
      - intros _ Hu. specialize (H6 Hu). destruct restore; exact H6.
      - intros q t Hin. destruct H3 as (_ & Hq & _).
        destruct (Hq q t ltac:(apply in_or_app; right; exact Hin)) as (_ & Hq1 & _).
        destruct (H4 q t Hin) as [Hx|Hx]; [left|right; lia]. intros i ? ?. apply cF_try. auto.
      - intros i Hi Hn. apply H2; [exact Hi|]. intros Hx. apply Hn, cF_try, Hx.
      - intros B M HB Hle Hfit. apply H5; auto. intros i Hi.
        specialize (Hfit i). rewrite Hs in Hfit. apply Hfit. destruct Hi as [Hi|Hi]; [left; apply cF_try, Hi|auto]. }
    unfold bind, gets, g_catch in *.
    destruct (c_run_steps R k E m fuel a body z) as [x z1|e z1| | |]; auto.
    + cbn in IH. destruct IH as (G' & I1 & I2 & I3 & I4 & I5 & I6 & I7).
      specialize (HP z1 I3 I6). destruct restore; cbn in Hm |- *; apply HP; auto.
      all: exists G'; ands; auto; try (intros q t Hin; destruct (I5 q t Hin) as [Hx|Hx]; [left; exact Hx|right; lia]).
      all: intros B M HB Hle Hfit; apply CI_try; apply I7; auto.
    + cbn in IH. destruct IH as (I1 & I2 & I3 & I4 & G' & I5 & I6).
      specialize (HP z1 I3 I4). destruct restore; cbn in Hm |- *; apply HP; auto.
      all: exists G'; ands; auto.
      all: intros B M HB Hle Hfit; apply CI_caught; [exact I1|exact I3|apply I5].
  - (* no more calls *)
    intros size al a z G p b He Hr _. cbn [c_run_steps existsb negb].
    eapply cdone_imp; [eapply cdone_ret; exact Hr|exact (fun _ _ x => x)|reflexivity|auto|].
    cbn beta. intros e B M _ _ _ [-> _]. constructor.
  - (* a call, then the others *)
    intros size al a c cs Hc IH1 Hd Hu Hcs IH2 z G p b He Hr Hpl. cbn [existsb] in Hpl. cbn [c_run_steps].
    assert (Hr2 : cat z G (fun i => cF p c i \/ cFs p cs i) p a b).
    { eapply cat_sub; [exact Hr|]. intros i [Hi|(c' & Hin & Hi)]; [exists c|exists c']; split; auto; [left; reflexivity|right; exact Hin]. }
    specialize (IH1 z G p b He ltac:(eapply cat_sub; [exact Hr2|intros i Hi; left; exact Hi])
                  ltac:(intros Hk Hb; specialize (Hpl Hk Hb); apply Bool.orb_false_iff in Hpl; apply Hpl)).
    pose proof (cdone_seq _ (why (existsb c_may_panic cs) (flat_map exposed cs)) z G (cF p c) (cFs p cs) b _ (negb (existsb unsettles cs)) _
      (fun e1 e B M => cimages M B p a e1 cs e) p a (c_run_step R k E m fuel a c) (fun _ => c_run_steps R k E m fuel a cs) Hr2
      ltac:(intros i [Hi1 Hi2] (c' & Hin & Hi3 & Hi4); exact (Hd c' (i - p) Hin Hi2 Hi4)) ltac:(intros; eapply why_later; eassumption) IH1) as X2.
    assert (X3 : forall (x : unit) z1 G1, c_run_step R k E m fuel a c z = Ok x z1 -> cat z1 (G ++ G1) (cFs p cs) p a (b && negb (unsettles c)) ->
      cdone (why (existsb c_may_panic cs) (flat_map exposed cs)) z1 (G ++ G1) (cFs p cs) (negb (existsb unsettles cs))
        (fun e B M => cimages M B p a (gpos z1) cs e) (c_run_steps R k E m fuel a cs z1)).
    { intros x z1 G1 _ Hr1. apply (IH2 z1 (G ++ G1) p _ He Hr1).
      intros Hk Hb. apply Bool.andb_false_iff in Hb. destruct Hb as [Hb|Hb].
      - specialize (Hpl Hk Hb). apply Bool.orb_false_iff in Hpl. apply Hpl.
      - apply Hu; [exact Hk|]. destruct (unsettles c); [reflexivity|discriminate]. }
    specialize (X2 X3). eapply cdone_imp; [exact X2| | | |].
    + cbn beta. intros hi _ [X|X]; revert X; cbn [existsb flat_map]; apply why_in.
      * intros ->. reflexivity.
      * intros s Hs. apply in_or_app. left. exact Hs.
      * intros ->. apply Bool.orb_true_r.
      * intros s Hs. apply in_or_app. right. exact Hs.
    + intros i. split.
      * intros [Hi|(c' & Hin & Hi)]; [exists c|exists c']; split; auto; [left; reflexivity|right; exact Hin].
      * intros (c' & [<-|Hin] & Hi); [left; exact Hi|right; exists c'; auto].
    + cbn [existsb]. destruct (unsettles c); cbn; auto.
    + cbn beta. intros e B M _ _ _ (e1 & X4 & X5). econstructor; eassumption.
Qed.

(** ** The root *)
Definition crdone (W : N -> N -> Prop) (z : gz St) (G : ptrlist) (st : N) (X : N -> N -> mem -> Prop) (o : outcome (gz St) N) : Prop :=
  match o with
  | Ok p z' => exists G', p = st /\ ginv k z' (G ++ G') /\ gpos z < gpos z' /\ gpos z' <= MAXC /\
      (forall q t, In (q, t) G' -> gpos z <= q) /\
      (forall i, i < gpos z -> gbuf z' i = gbuf z i) /\
      (forall B M, (MVA | B) -> B + gpos z' <= umod -> gfits_mem R contents z z' (G ++ G') (fun _ => False) B M -> X (gpos z') B M)
  | Panic e z' => W (gpos z) (gpos z') /\ gpos z <= gpos z' /\ (forall i, i < gpos z -> gbuf z' i = gbuf z i) /\
      (exists G', ginv k z' (G ++ G') /\ forall q t, In (q, t) G' -> gpos z <= q)
  | Abort => True
  | UB | OutOfFuel => False
  end.

Lemma c_impl_done l a cs z G :
  good_layout l -> 0 < l_size l -> a + l_size l <= umod -> csok (l_size l) (l_align l) a cs -> ginv k z G ->
  crdone (why (existsb c_may_panic cs) (root_exposed (l, a, cs))) z G (push_start (gpos z) l)
    (fun e B M => cregion M B (push_start (gpos z) l) a (l_size l) (push_end (gpos z) l 1) cs e)
    (g_serialize_value_with R k (slice_at m l a 1) (c_run_steps R k E m fuel a cs) z).
Proof.
  intros Hg Hnz Ha Hcs Hz. cfg.
  pose proof (ginv_ok R inv contents _ _ _ Hz) as Hok.
  pose proof (ready_le R inv contents empties K _ Hok) as [Hple Hcle].
  pose proof (g_push_spec C R inv contents empties K KP (gz_st z) l 1 (mem_from m a) Hok Hg ltac:(lia) ltac:(lia)) as HP.
  rewrite N.mul_1_r in HP. specialize (HP ltac:(apply Hg)).
  set (st := push_start (gpos z) l) in *.
  set (X := fun e B M => cregion M B st a (l_size l) (push_end (gpos z) l 1) cs e).
  pose proof (push_end_ge C (gpos z) l 1) as Hpe. fold st in Hpe. rewrite N.mul_1_r in Hpe.
  pose proof (push_start_ge C (gpos z) l (proj1 Hg)) as Hst. fold st in Hst.
  set (W := why (existsb c_may_panic cs) (root_exposed (l, a, cs))).
  assert (Hpush : forall (f : N -> M (gz St) N),
    (forall z1, GenSpec.ready I inv (gz_st z1) -> gpos z1 = push_end (gpos z) l 1 -> push_end (gpos z) l 1 <= MAXC ->
       (forall i, i < gpos z -> gbuf z1 i = gbuf z i) ->
       (forall i, i < l_size l -> gbuf z1 (st + i) = m (a + i)) ->
       gz_ptrs z1 = gz_ptrs z -> crdone W z G st X (f st z1)) ->
    crdone W z G st X (bind (glift (g_push_slice I l 1 (mem_from m a))) f z)).
  { intros f Hcont. unfold bind, glift.
    destruct (g_push_slice I l 1 (mem_from m a) (gz_st z)) as [p w1|e w1| | |] eqn:Ep; auto.
    - destruct HP as (-> & P2 & P3 & P4 & P5 & P6). apply Hcont; auto.
    - destruct HP as (P1 & P2 & P3 & P4). cbn. ands; auto.
      + apply (refused_why _ _ (SRaw l a 1)); [left; reflexivity|rewrite P3; exact Hst|]. exists e.
        unfold step_end, slice_end. destruct (N.eqb_spec (l_size l) 0); [lia|exact P1].
      + rewrite P3. exact Hst.
      + exists []. rewrite app_nil_r. split; [|intros q t' []].
        apply (ginv_push R inv contents k z G w1 Hz P2); [rewrite P3; exact Hst|exact P4]. }
  assert (Hgo : forall z1, GenSpec.ready I inv (gz_st z1) -> gpos z1 = push_end (gpos z) l 1 -> push_end (gpos z) l 1 <= MAXC ->
       (forall i, i < gpos z -> gbuf z1 i = gbuf z i) ->
       (forall i, i < l_size l -> gbuf z1 (st + i) = m (a + i)) ->
       gz_ptrs z1 = gz_ptrs z ->
       (tracking k = true -> gz_map z1 = mkMap a st) ->
       crdone W z G st X ((c_run_steps R k E m fuel a cs ;;; ret st) z1)).
  { intros z1 D1 D2 D3 D4 D5 D8 D9.
    assert (Hcp : forall i, seg st (l_size l) i -> gpos z <= i /\ i < gpos z1 /\ gbuf z1 i = m (a + (i - st))).
    { intros i Hi. unfold seg in Hi. ands; try lia.
      replace i with (st + (i - st)) at 1 by lia. apply D5. lia. }
    assert (Hz1 : ginv k z1 G).
    { pose proof (ginv_push R inv contents k z G (gz_st z1) Hz D1 ltac:(lia) D4) as Hzi.
      destruct z1 as [s1 m1 p1]. cbn in *. subst p1.
      apply (ginv_map R inv contents k (mkGZ s1 (gz_map z) (gz_ptrs z)) G m1 Hzi). }
    assert (Hrd : gat k z1 G (seg st (l_size l)) m st a).
    { unfold GenSerFacts.gat. ands; auto.
      - intros i Hi. destruct (Hcp i Hi) as (F1 & F2 & F3). unfold seg in Hi. ands; auto; lia.
      - intros q t' Hq' i Hi1 Hi2 Hs. destruct (Hcp i Hs) as (F1 & _).
        destruct Hz as (_ & Hzq & _). destruct (Hzq q t' Hq'). lia.
      - intros Hk. rewrite (D9 Hk). cbn. lia. }
    pose proof (c_region_done (l_size l) (l_align l) a cs z1 G st Hcs (c_all_goals _ _ _ _ Hcs)) as HD.
    specialize (HD ltac:(unfold enclosing; ands; auto; try apply Hg; apply (push_start_align C), Hg) Hrd).
    rewrite D2 in HD. fold X in HD.
    unfold bind. destruct (c_run_steps R k E m fuel a cs z1) as [u z2|e z2| | |]; auto.
    - cbn in HD. destruct HD as (G' & J1 & J2 & J4 & J5 & J6 & J7 & J10).
      cbn. exists G'. ands; auto; try lia.
      + intros q t' Hq'. destruct (J6 q t' Hq') as [Hi|Hi]; [|lia].
        destruct (Hcp q (Hi q ltac:(lia) ltac:(lia))) as (F1 & _). exact F1.
      + intros i Hi. rewrite J7; [apply D4; exact Hi|lia|].
        intros Hs. destruct (Hcp i Hs). lia.
      + intros B M HB Hle Hfit. apply J10; auto.
        intros i Hi. apply Hfit. right.
        destruct Hi as [Hi|Hi]; [destruct (Hcp i Hi); lia|lia].
    - cbn in HD |- *. destruct HD as (B2 & B3 & B5 & B6 & G' & B7 & B8). ands; auto; try lia.
      + apply (why_later _ _ _ (gpos z1)); [lia|]. revert B2. apply why_in; [auto|]. intros s Hs. right. exact Hs.
      + intros i Hi. rewrite B6; [apply D4; exact Hi|lia|].
        intros Hs. destruct (Hcp i Hs). lia.
      + exists G'. split; [exact B7|]. intros q t' Hq'. destruct (B8 q t' Hq') as [Hi|Hi]; [|lia].
        destruct (Hcp q (Hi q ltac:(lia) ltac:(lia))) as (F1 & _). lia. }
  unfold g_serialize_value_with, g_push_raw_slice.
  cbn [sl_lay sl_len sl_data slice_at sl_addr].
  clear HS. destruct k; apply Hpush; intros z1 D1 D2 D3 D4 D5 D8.
  + apply Hgo; auto. discriminate.
  + erewrite bind_ok by reflexivity. apply Hgo; auto.
  + erewrite bind_ok by reflexivity. apply Hgo; auto.
  + erewrite bind_ok by reflexivity. apply Hgo; auto.
Qed.

(** ** Several values *)
Notation croot := (c_root_in empties k E m fuel).
Notation cattempts := (c_attempts k E m refused).

Lemma c_attempts_done : forall rs z G, Forall croot rs -> ginv k z G ->
  match c_attempt_all R k E m fuel rs z with
  | Ok outs z' => exists G', ginv k z' (G ++ G') /\ gpos z <= gpos z' /\
      (forall q t, In (q, t) G' -> gpos z <= q) /\
      (forall i, i < gpos z -> gbuf z' i = gbuf z i) /\
      (forall B M, (MVA | B) -> B + gpos z' <= umod -> gfits_mem R contents z z' (G ++ G') (fun _ => False) B M ->
         cattempts M B (gpos z) rs outs (gpos z'))
  | Abort => True
  | _ => False
  end.
Proof.
  induction rs as [|[[l a] cs] rs IH]; intros z G Hall Hz; cfg.
  - cbn. exists []. rewrite app_nil_r. ands; auto; try lia.
    + intros q t [].
    + intros. constructor.
  - inversion Hall as [|? ? Hx Hxs]; subst. destruct Hx as (X1 & X2 & X3 & X4).
    cbn [c_attempt_all].
    assert (Hb : forall A (f : N -> M (gz St) A), bind (gets (fun z => i_pos I (gz_st z))) f z = f (gpos z) z) by reflexivity.
    rewrite Hb. clear Hb.
    pose proof (c_impl_done l a cs z G X1 X2 X3 X4 Hz) as HD.
    unfold bind, g_catch.
    destruct (g_serialize_value_with R k (slice_at m l a 1) (c_run_steps R k E m fuel a cs) z) as [p z1|e z1| | |]; auto.
    + cbn [crdone] in HD. destruct HD as (G1 & -> & I1 & I4 & I5 & I6 & I7 & I10).
      specialize (IH z1 (G ++ G1) Hxs I1).
      destruct (c_attempt_all R k E m fuel rs z1) as [outs z2|e z2| | |]; auto.
      destruct IH as (G2 & J1 & J2 & J3 & J4 & J6). cbn [ret].
      exists (G1 ++ G2). rewrite app_assoc. ands; auto; try lia.
      * intros q t Hin. apply in_app_or in Hin. destruct Hin as [Hin|Hin].
        -- apply (I6 q t Hin).
        -- pose proof (J3 q t Hin). lia.
      * intros i Hi. rewrite J4 by lia. apply I7; lia.
      * intros B' M HB Hle Hfit. apply CA_some with (b' := gpos z1); [|exact I4|].
        -- apply I10; [exact HB|lia|]. intros i [[]|Hi].
           rewrite Hfit by (right; lia).
           rewrite overlay_app_r.
           ++ apply overlay_buf. apply J4; lia.
           ++ intros q t Hin. destruct (covers i (q, t)) eqn:Ec; [|reflexivity].
              apply covers_true in Ec. exfalso. pose proof (J3 q t Hin). lia.
        -- apply J6; [exact HB|lia|]. intros i [[]|Hi]. apply Hfit. right; lia.
    + cbn [crdone] in HD. destruct HD as (D1 & D4 & D5 & G1 & D6 & D7).
      specialize (IH z1 (G ++ G1) Hxs D6).
      destruct (c_attempt_all R k E m fuel rs z1) as [outs z2|e2 z2| | |]; auto.
      destruct IH as (G2 & J1 & J2 & J3 & J4 & J6). cbn [ret].
      exists (G1 ++ G2). rewrite app_assoc. ands; auto; try lia.
      * intros q t Hin. apply in_app_or in Hin. destruct Hin as [Hin|Hin].
        -- pose proof (D7 q t Hin). lia.
        -- pose proof (J3 q t Hin). lia.
      * intros i Hi. rewrite J4 by lia. apply D5; lia.
      * intros B' M HB Hle Hfit. apply CA_none with (b' := gpos z1); [exact D1|lia|apply D6|].
        apply J6; [exact HB|lia|]. intros i [[]|Hi]. apply Hfit. right; lia.
Qed.

Lemma c_attempts_ge M B b rs outs e : cattempts M B b rs outs e -> b <= e.
Proof. induction 1; lia. Qed.
Lemma c_attempts_nothing M B M' B' b rs outs e : cattempts M B b rs outs e -> e = 0 -> cattempts M' B' b rs outs e.
Proof.
  induction 1 as [b|b l a cs rs outs b' e H1 H2 H3 IH|b l a cs rs outs e b' H1 H2 H3 IH]; intros He; [constructor| |].
  - pose proof (c_attempts_ge _ _ _ _ _ _ H3). lia.
  - eapply CA_none; eauto.
Qed.

Theorem c_session_spec rs s :
  GenSpec.ready I inv s -> Forall croot rs ->
  match c_session R k E m fuel rs (g_from_storage s) with
  | Ok outs z =>
      let s' := gz_st z in
      let B := g_final_base R k s' in
      GenSpec.ready I inv s' /\ i_pos I s <= i_pos I s' /\
      (forall i, i < i_pos I s -> contents s' i = contents s i) /\
      cattempts (g_out_mem I contents B s') B (i_pos I s) rs outs (i_pos I s')
  | Abort => True
  | _ => False
  end.
Proof.
  intros Hok Hall. cfg.
  pose proof (g_from_storage_inv R inv contents k s Hok) as Hz.
  pose proof (c_attempts_done rs (g_from_storage s) [] Hall Hz) as HV.
  unfold c_session, bind.
  destruct (c_attempt_all R k E m fuel rs (g_from_storage s)) as [ps z1|e z1| | |]; auto.
  cbn [app] in HV. destruct HV as (G & V1 & V2 & V5 & V6 & V9).
  cbn [g_from_storage gz_st] in *.
  pose proof (ginv_ok R inv contents _ _ _ V1) as Hok1.
  destruct (ready_le R inv contents empties K _ Hok1) as [Hpc Hcm].
  destruct (g_finalize_eq R C inv contents empties K k z1 G HS V1) as (z' & -> & Z1 & Z3 & Z6 & Z7).
  cbn [ret]. cbv zeta. rewrite Z1. ands; auto.
  - intros i Hi. rewrite Z7 by lia. rewrite overlay_none; [apply V6; exact Hi|].
    intros q t Hq. pose proof (V5 q t Hq). unfold covers; cbn. lia.
  - assert (Hb : g_final_base R k (gz_st z') = g_final_base R k (gz_st z1)).
    { unfold g_final_base. destruct k; auto. }
    rewrite Hb. destruct (N.eq_dec (gpos z1) 0) as [Hp0|Hp0].
    + (* nothing was written: the base does not matter *)
      rewrite Hp0 in *. apply (c_attempts_nothing (fun _ => None) 0); auto. apply V9; [apply N.divide_0_r|lia|].
      intros i [[]|Hi]. cbn in Hi. lia.
    + apply V9.
      * unfold g_final_base. clear - HS Hok1 Hpc Hp0 C. destruct k; try apply N.divide_0_r.
        destruct HS as (_ & Hct & _). destruct (Hct (gz_st z1) (proj1 Hok1) ltac:(lia)) as (P1 & P2 & P3).
        eapply N.divide_trans; [apply (c_MVA_dvd_SA C)|exact P2].
      * unfold g_final_base. destruct k; try lia.
        destruct HS as (_ & Hct & _). destruct (Hct (gz_st z1) (proj1 Hok1) ltac:(lia)) as (P1 & P2 & P3). lia.
      * intros i [[]|Hi]. unfold g_out_mem. rewrite Z1. cbn [gz_st g_from_storage] in Hi.
        set (b := g_final_base R k (gz_st z1)) in *.
        rewrite (proj2 (N.leb_le b (b + i))) by lia.
        rewrite (proj2 (N.ltb_lt (b + i) _)) by lia.
        cbn [andb]. replace (b + i - b) with i by lia. apply Z7. lia.
Qed.
End CatchFacts.
