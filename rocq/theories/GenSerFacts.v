(** * GenSerFacts: pieces of a serialization over any storage (as SerFacts.v, whose storage
    is AlignedVec). *)
From Verif Require Import Base Types Storage Serializer Serialize Spec ArithFacts StorageFacts MemFacts TypeFacts
  SerFacts SerMain GenStorage GenSpec GenFacts GenSerializer GenSerSpec.
From Coq Require Import ZifyBool ZifyNat ZifyN.
Local Open Scope N_scope.

Section GenSerFacts.
Context {P : Params}.
Hypothesis C : cfg_ok.

Ltac cfg :=
  pose proof (c_SA_pos C); pose proof (c_MVA_pos C); pose proof (c_VA_pos C);
  pose proof (c_VA_MVA C); pose proof (c_MVA_SA C); pose proof (c_MAXC C);
  pose proof (c_MVA_le_MAXC C); pose proof (c_sum C); pose proof (c_umod C);
  pose proof (c_SA_lt_imax C); pose proof (pW_vals (c_machine C)).

Context {St : Type}.
Variable R : ra_impl St.
Variable inv : St -> Prop.
Variable contents : St -> mem.
Variable empties : bool.
Hypothesis K : keeps_contract (r_st R) inv contents empties.
Hypothesis KP : reserve_keeps_pos (r_st R) inv.
Context {UP : Prop}.    (* may client code panic by itself? *)

Notation I := (r_st R).
Notation gpos z := (i_pos (r_st R) (gz_st z)).
Notation gcap z := (i_capacity (r_st R) (gz_st z)).
Notation gbuf z := (contents (gz_st z)).

Definition gkind_ok (k : kind) (z : gz St) (G : ptrlist) (bases : list N) : Prop :=
  match k with
  | Complete => recs (gz_ptrs z) = combine bases (map fst G)
  | PtrOffset => Forall (fun x => x = 0) bases
  | _ => G = []
  end.

Definition ginv (k : kind) (z : gz St) (G : ptrlist) : Prop :=
  GenSpec.ready I inv (gz_st z) /\
  (forall q t, In (q, t) G -> (pW | q) /\ q + pW <= gpos z /\ t < gpos z) /\
  NoDup (map fst G) /\
  (G = [] \/ pW <= MVA) /\
  exists bases, words_ok (gbuf z) G bases /\ gkind_ok k z G bases.

Lemma ginv_ok k z G : ginv k z G -> GenSpec.ready I inv (gz_st z).
Proof. intros H; apply H. Qed.
Lemma ready_le s : GenSpec.ready I inv s -> i_pos I s <= i_capacity I s /\ i_capacity I s <= MAXC.
Proof. intros [Hi _]. destruct (kc_state _ _ _ _ K s Hi) as (_ & A & B). auto. Qed.

Lemma ginv_push k z G w' :
  ginv k z G -> GenSpec.ready I inv w' -> gpos z <= i_pos I w' ->
  (forall i, i < gpos z -> contents w' i = gbuf z i) ->
  ginv k (mkGZ w' (gz_map z) (gz_ptrs z)) G.
Proof.
  intros (Hok & Hin & Hnd & Hmv & bases & Hw & Hk) Hok' Hpos Hbuf.
  unfold ginv; cbn [gz_st]. ands; auto.
  - intros q t Hqt. destruct (Hin q t Hqt) as (A & B & D). ands; auto; lia.
  - exists bases. split; [|exact Hk].
    eapply words_ok_ext; [|exact Hw]. intros q t Hqt i Hi. cbn.
    destruct (Hin q t Hqt) as (A & B & D). apply Hbuf. lia.
Qed.

Lemma ginv_map k z G pm : ginv k z G -> ginv k (mkGZ (gz_st z) pm (gz_ptrs z)) G.
Proof. unfold ginv; cbn. destruct k; auto. Qed.

Lemma ginv_write k z G w' p n data :
  ginv k z G -> GenSpec.ready I inv w' -> i_pos I w' = gpos z ->
  same_below (gpos z) (contents w') (blit (gbuf z) p n data) ->
  (forall q t, In (q, t) G -> q + pW <= p \/ p + n <= q) ->
  ginv k (mkGZ w' (gz_map z) (gz_ptrs z)) G.
Proof.
  intros (Hok & Hin & Hnd & Hmv & bases & Hw & Hk) Hok' Hpos Hb Hdis.
  unfold ginv; cbn [gz_st gz_ptrs]. rewrite Hpos. ands; auto.
  exists bases. split; [|exact Hk].
  eapply words_ok_ext; [|exact Hw]. intros q t Hqt i Hi. cbn.
  destruct (Hin q t Hqt) as (_ & D & _).
  rewrite Hb by lia. apply blit_out. destruct (Hdis q t Hqt); lia.
Qed.

Lemma glift_eq {A} (m : M St A) z a w' :
  m (gz_st z) = Ok a w' -> glift m z = Ok a (mkGZ w' (gz_map z) (gz_ptrs z)).
Proof. intros H. unfold glift. rewrite H. reflexivity. Qed.

(** ** push_slice *)
Lemma g_push_spec s l n data :
  GenSpec.ready I inv s -> good_layout l -> 0 < l_size l -> 0 < n -> l_size l * n <= imax ->
  match g_push_slice I l n data s with
  | Ok p s' => p = push_start (i_pos I s) l /\ i_pos I s' = push_end (i_pos I s) l n /\
      GenSpec.ready I inv s' /\ push_end (i_pos I s) l n <= MAXC /\
      (forall i, i < i_pos I s -> contents s' i = contents s i) /\
      (forall i, i < l_size l * n -> contents s' (p + i) = data i)
  | Panic e s' => refused_within I inv (i_pos I s) (push_end (i_pos I s) l n) e /\ GenSpec.ready I inv s' /\
      i_pos I s' = push_start (i_pos I s) l /\
      (forall i, i < i_pos I s -> contents s' i = contents s i)
  | Abort => True
  | UB | OutOfFuel => False
  end.
Proof.
  intros Hr Hg Hs Hn Hsz. cfg.
  pose proof (g_push_slice_ok C I inv contents empties K s l n data Hr Hg Hs ltac:(lia) (or_introl Hn)) as HH.
  destruct (g_push_slice I l n data s) as [p s'|e s'| | |] eqn:Eg; auto.
  - destruct HH as (sh & Q1 & Q2 & Q3 & Q4 & Q5 & Q6 & Q7). specialize (Q4 KP). subst sh.
    rewrite N.add_0_r in Q2. subst p. unfold push_end. ands; auto.
    rewrite <- Q3. destruct (ready_le s' Q7). lia.
  - destruct HH as (Q1 & Q2 & Q3). ands; auto.
    (* which panic *)
    pose proof Hg as (Ha & _ & _ & Hm).
    unfold g_push_slice in Eg. destruct (N.eqb_spec (l_size l) 0) as [|_]; [lia|].
    destruct (g_align_for_ok C I inv contents empties K s l Hr Ha Hm) as (s1 & E1 & Hr1 & Hp1 & Hc1 & Hb1).
    erewrite bind_ok in Eg by exact E1.
    erewrite bind_ok in Eg by (apply mul_u_ok; lia).
    pose proof (kc_reserve _ _ _ _ K s1 (l_size l * n) (proj1 Hr1) (proj2 Hr1) ltac:(lia)) as Hres.
    pose proof (KP s1 (l_size l * n) (proj1 Hr1) (proj2 Hr1) ltac:(lia)) as Hkp.
    unfold bind at 1 in Eg.
    destruct (i_reserve I (l_size l * n) s1) as [[] s2|e2 s2| | |] eqn:E2; try discriminate.
    2:{ inversion Eg; subst. exists s1, (l_size l * n), s'. pose proof (push_end_ge C (i_pos I s) l n).
        pose proof (push_start_ge C (i_pos I s) l (proj1 Hg)). rewrite Hp1. ands; auto. apply Hr1. }
    exfalso. destruct Hres as (Hi2 & Hle2 & Hd2 & Hc2 & Hb2).
    erewrite bind_ok in Eg by reflexivity.
    assert (HdA : (l_align l | i_pos I s2)) by (rewrite Hkp, Hp1; apply (push_start_align C); exact Ha).
    destruct (kc_push_slice_unchecked _ _ _ _ K s2 l n data Hi2 Hg Hs (or_introl Hn) HdA Hc2)
      as (s3 & E3 & Hi3 & Hp3 & Hc3 & Hb3 & Hdat).
    erewrite bind_ok in Eg by exact E3.
    destruct (g_align_after_ok C I inv contents empties K s3 l (i_pos I s2) n Hi3) as (s4 & E4 & _); auto.
    { rewrite Hkp. apply Hr1. }
    erewrite bind_ok in Eg by exact E4. discriminate.
Qed.

Lemma g_push_zst s l n data : l_size l = 0 -> g_push_slice I l n data s = Ok 0 s.
Proof. intros H. unfold g_push_slice. rewrite H. reflexivity. Qed.

(** ** Pieces *)

(** Why a piece with the allocations [ps] may panic. *)
Definition gstop (z : gz St) (ps : list (layout * N)) (e : panic) : Prop :=
  refused_within I inv (gpos z) (end_pos (gpos z) ps) e \/ (UP /\ e = PUser).

Lemma refused_wider lo hi lo' hi' e :
  refused_within I inv lo hi e -> lo' <= lo -> hi <= hi' -> refused_within I inv lo' hi' e.
Proof. intros (s & n & s' & H1 & H2 & H3 & H4) ? ?. exists s, n, s'. ands; auto; lia. Qed.

Lemma gstop_wider z ps z' ps' e :
  gstop z ps e -> gpos z' <= gpos z -> end_pos (gpos z) ps <= end_pos (gpos z') ps' -> gstop z' ps' e.
Proof. intros [H|H] ? ?; [left; eapply refused_wider; eassumption|right; exact H]. Qed.

Definition gfits_mem (z : gz St) (z' : gz St) (G : ptrlist) (F : N -> Prop) (B : N) (M : mem) : Prop :=
  forall i, (F i \/ (gpos z <= i /\ i < gpos z')) -> M (B + i) = overlay G (gbuf z') B i.

Definition gdone (k : kind) (z : gz St) (G : ptrlist) (F : N -> Prop) (ps : list (layout * N))
    (X : N -> mem -> Prop) {A} (o : outcome (gz St) A) : Prop :=
  match o with
  | Ok _ z' => exists G',
      ginv k z' (G ++ G') /\ gz_map z' = gz_map z /\
      gpos z' = end_pos (gpos z) ps /\ gpos z <= gpos z' /\ gpos z' <= MAXC /\
      (forall q t, In (q, t) G' ->
         (forall i, q <= i -> i < q + pW -> F i) \/ (gpos z <= q /\ q + pW <= gpos z')) /\
      (forall i, i < gpos z -> ~ F i -> gbuf z' i = gbuf z i) /\
      (forall B M, (MVA | B) -> B + gpos z' <= umod -> gfits_mem z z' (G ++ G') F B M -> X B M)
  | Panic e z' =>
      gstop z ps e /\ GenSpec.ready I inv (gz_st z') /\ gpos z <= gpos z' /\
      (forall i, i < gpos z -> ~ F i -> gbuf z' i = gbuf z i) /\
      (exists G', ginv k z' (G ++ G') /\
         forall q t, In (q, t) G' -> (forall i, q <= i -> i < q + pW -> F i) \/ gpos z <= q)
  | Abort => True
  | UB | OutOfFuel => False
  end.

Definition gat (k : kind) (z : gz St) (G : ptrlist) (F : N -> Prop) (m : mem) (p a : N) : Prop :=
  ginv k z G /\
  (forall i, F i -> p <= i /\ i < gpos z /\ gbuf z i = m (a + (i - p))) /\
  (forall q t, In (q, t) G -> forall i, q <= i -> i < q + pW -> ~ F i) /\
  (tracking k = true -> pm_in (gz_map z) <= a /\ p = a - pm_in (gz_map z) + pm_out (gz_map z)).


Lemma gat_sub k z G F (F' : N -> Prop) m p a :
  gat k z G F m p a -> (forall i, F' i -> F i) -> gat k z G F' m p a.
Proof.
  intros (A & B & D & E) H. unfold gat. ands; auto. intros q t Hin i H1 H2 HF. eapply D; eauto.
Qed.

Lemma gat_shift k z G F m p a d :
  gat k z G F m p a -> (forall i, F i -> p + d <= i) -> gat k z G F m (p + d) (a + d).
Proof.
  intros (A & B & D & E) H. unfold gat. ands; auto.
  - intros i HF. destruct (B i HF) as (B1 & B2 & B3). pose proof (H i HF). ands; auto.
    rewrite B3. f_equal. lia.
  - intros Hk. destruct (E Hk) as [E1 E2]. split; lia.
Qed.

Lemma gat_eqF k z G (F F' : N -> Prop) m p a :
  (forall i, F' i <-> F i) -> gat k z G F m p a -> gat k z G F' m p a.
Proof. intros H Hr. eapply gat_sub; [exact Hr|]. intros i; apply H. Qed.

Lemma gdone_weaken k z G F (F' : N -> Prop) ps (X X' : N -> mem -> Prop) {A} (o : outcome (gz St) A) :
  gdone k z G F ps X o ->
  (forall i, F i -> F' i) ->
  (forall B M, (MVA | B) -> X B M ->
      forall z' G', gfits_mem z z' (G ++ G') F' B M ->
        (forall q t, In (q, t) G' ->
          (forall i, q <= i -> i < q + pW -> F i) \/ (gpos z <= q /\ q + pW <= gpos z')) ->
        (forall i, i < gpos z -> ~ F i -> gbuf z' i = gbuf z i) -> X' B M) ->
  gdone k z G F' ps X' o.
Proof.
  intros H HF HR. destruct o as [a z'|e z'| | |]; auto; cbn in *.
  - destruct H as (G' & H1 & H2 & H3 & H4 & H5 & H6 & H7 & H10).
    exists G'. ands; auto.
    + intros q t Hin. destruct (H6 q t Hin) as [Hx|Hx]; [left; auto|right; exact Hx].
    + intros B M HB Hle Hfit. eapply HR; eauto. apply H10; auto.
      intros i Hi. apply Hfit. destruct Hi as [Hi|Hi]; auto.
  - destruct H as (H2 & H3 & H4 & H5 & G' & H6 & H7). ands; auto. exists G'. split; [exact H6|].
    intros q t Hin. destruct (H7 q t Hin) as [Hx|Hx]; [left; auto|right; exact Hx].
Qed.

Lemma gdone_imp k z G F ps (X X' : N -> mem -> Prop) {A} (o : outcome (gz St) A) :
  gdone k z G F ps X o -> (forall B M, (MVA | B) -> B + gpos z <= umod -> X B M -> X' B M) -> gdone k z G F ps X' o.
Proof.
  intros H HR. destruct o as [a z'|e z'| | |]; auto; cbn in *.
  destruct H as (G' & H1 & H2 & H3 & H4 & H5 & H6 & H7 & H10).
  exists G'. ands; auto. intros. apply HR; auto. lia.
Qed.

(** A piece that does nothing: the region keeps the input's bytes. *)
Lemma gdone_ret k z G F m p a (X : N -> mem -> Prop) :
  gat k z G F m p a ->
  (forall B M, (forall i, F i -> M (B + i) = m (a + (i - p))) -> X B M) ->
  gdone k z G F [] X (ret tt z).
Proof.
  intros (A & B & D & E) HR. cbn. exists []. rewrite app_nil_r.
  pose proof (ready_le _ (ginv_ok _ _ _ A)).
  ands; auto; try lia.
  - intros q t [].
  - intros B' M HB Hle Hfit. apply HR. intros i HF. rewrite Hfit by auto.
    rewrite overlay_none; [apply B; exact HF|].
    intros q t Hin. destruct (covers i (q, t)) eqn:Ec; [|reflexivity].
    apply covers_true in Ec. exfalso. eapply D; try eassumption; lia.
Qed.

(** A piece after a piece. *)
Lemma gdone_seq k z G F1 F2 ps1 ps2 (R1 R2 : N -> mem -> Prop) m p a {A} (f1 : M (gz St) A) (f2 : A -> M (gz St) unit) :
  gat k z G (fun i => F1 i \/ F2 i) m p a ->
  (forall i, F1 i -> ~ F2 i) ->
  gdone k z G F1 ps1 R1 (f1 z) ->
  (forall x z1 G1, f1 z = Ok x z1 -> gat k z1 (G ++ G1) F2 m p a -> gz_map z1 = gz_map z ->
     gpos z1 = end_pos (gpos z) ps1 ->
     gdone k z1 (G ++ G1) F2 ps2 R2 (f2 x z1)) ->
  gdone k z G (fun i => F1 i \/ F2 i) (ps1 ++ ps2) (fun B M => R1 B M /\ R2 B M) (bind f1 f2 z).
Proof.
  intros (Hz & Hcp & Hnp & Hmap) Hdis H1 H2. cfg. unfold bind.
  destruct (f1 z) as [x z1|e z1| | |] eqn:Ef; auto.
  2:{ cbn in *. destruct H1 as (B2 & B3 & B4 & B5 & G1 & B6 & B7). ands; auto.
      - eapply gstop_wider; [exact B2|lia|]. rewrite end_pos_app. apply (end_pos_ge C).
      - exists G1. split; [exact B6|]. intros q t Hin. destruct (B7 q t Hin) as [Hx|Hx]; [left; auto|right; exact Hx]. }
  cbn in H1. destruct H1 as (G1 & I1 & I2 & I3 & I4 & I5 & I6 & I7 & I10).
  assert (Hr2 : gat k z1 (G ++ G1) F2 m p a).
  { unfold gat. ands; auto.
    - intros i HF. destruct (Hcp i (or_intror HF)) as (C1 & C2 & C3). ands; [lia|lia|].
      rewrite I7; [exact C3|lia|]. intros HF1. apply (Hdis i HF1 HF).
    - intros q t Hin i Hi1 Hi2 HF. apply in_app_or in Hin. destruct Hin as [Hin|Hin].
      + eapply Hnp; eauto.
      + destruct (I6 q t Hin) as [Hx|[Hx1 Hx2]].
        * apply (Hdis i); auto.
        * destruct (Hcp i (or_intror HF)) as (C1 & C2 & C3). lia.
    - rewrite I2. exact Hmap. }
  specialize (H2 x z1 G1 eq_refl Hr2 I2 I3).
  destruct (f2 x z1) as [y z2|e z2| | |]; auto.
  - cbn in H2. destruct H2 as (G2 & J1 & J2 & J3 & J4 & J5 & J6 & J7 & J10).
    cbn. exists (G1 ++ G2). rewrite app_assoc. ands; auto; try lia.
    + congruence.
    + rewrite end_pos_app, <- I3. exact J3.
    + intros q t Hin. apply in_app_or in Hin. destruct Hin as [Hin|Hin].
      * destruct (I6 q t Hin) as [Hx|Hx]; [left; auto|right; lia].
      * destruct (J6 q t Hin) as [Hx|Hx]; [left; auto|right; lia].
    + intros i Hi HF. rewrite J7 by (try lia; tauto). apply I7; [lia|tauto].
    + intros B M HB Hle Hfit. split.
      * apply I10; [exact HB|lia|]. intros i Hi.
        rewrite Hfit.
        2:{ destruct Hi as [Hi|Hi]; [left; auto|right; lia]. }
        assert (HnF2 : ~ F2 i).
        { destruct Hi as [Hi|Hi]; [apply Hdis; exact Hi|].
          intros HF. destruct (Hcp i (or_intror HF)) as (C1 & C2 & C3). lia. }
        assert (i < gpos z1).
        { destruct Hi as [Hi|Hi]; [|lia]. destruct (Hcp i (or_introl Hi)); lia. }
        rewrite overlay_app_r.
        -- apply overlay_buf. apply J7; auto.
        -- intros q t Hin. destruct (covers i (q, t)) eqn:Ec; [|reflexivity].
           apply covers_true in Ec. exfalso.
           destruct (J6 q t Hin) as [Hx|Hx]; [|lia]. apply HnF2. apply Hx; lia.
      * apply J10; [exact HB|lia|]. intros i Hi. apply Hfit.
        destruct Hi as [Hi|Hi]; [left; auto|right; lia].
  - cbn in H2 |- *. destruct H2 as (B2 & B3 & B5 & B6 & G2 & B7 & B8). ands; auto; try lia.
    + eapply gstop_wider; [exact B2|lia|]. rewrite end_pos_app, <- I3. lia.
    + intros i Hi HF. rewrite B6 by (try lia; tauto). apply I7; [lia|tauto].
    + exists (G1 ++ G2). rewrite app_assoc. split; [exact B7|].
      intros q t Hin. apply in_app_or in Hin. destruct Hin as [Hin|Hin].
      * destruct (I6 q t Hin) as [Hx|Hx]; [left; auto|right; lia].
      * destruct (B8 q t Hin) as [Hx|Hx]; [left; auto|right; lia].
Qed.

Lemma gdone_void {A} k z G F ps X (f : M (gz St) A) :
  gdone k z G F ps X (f z) -> gdone k z G F ps X (bind f (fun _ => ret tt) z).
Proof. unfold bind. destruct (f z); auto. Qed.

(** The rest of a region a piece does not touch keeps the input's bytes. *)
Lemma gdone_frame {A} k z G (F1 F2 : N -> Prop) ps X m p a (o : outcome (gz St) A) :
  gat k z G (fun i => F1 i \/ F2 i) m p a ->
  (forall i, F1 i -> ~ F2 i) ->
  gdone k z G F1 ps X o ->
  gdone k z G (fun i => F1 i \/ F2 i) ps (fun B M => X B M /\ copied m a p F2 B M) o.
Proof.
  intros Hr Hd H.
  pose proof (gdone_seq k z G F1 F2 ps [] X (copied m a p F2) m p a (fun _ => o) (fun _ => ret tt)
                Hr Hd H) as Hs.
  rewrite app_nil_r in Hs.
  assert (Hs' : gdone k z G (fun i => F1 i \/ F2 i) ps
                  (fun B M => X B M /\ copied m a p F2 B M) (bind (fun _ => o) (fun _ => ret tt) z)).
  { apply Hs. intros x z1 G1 _ Hr1 _ _. eapply gdone_ret; [exact Hr1|]. intros B M Hc. exact Hc. }
  unfold bind in Hs'. destruct o; auto.
Qed.

Lemma gdone_eqF {A} k z G (F F' : N -> Prop) ps (X X' : N -> mem -> Prop) (o : outcome (gz St) A) :
  (forall i, F i <-> F' i) ->
  (forall B M, (MVA | B) -> X B M -> X' B M) ->
  gdone k z G F ps X o -> gdone k z G F' ps X' o.
Proof.
  intros H HR Hd. eapply gdone_weaken; [exact Hd|intros i; apply H|]. intros B M HB HRB _ _ _ _ _. auto.
Qed.

(** ** Pointers *)
Lemma g_write_word_eq s q x :
  writes_in_place R inv contents ->
  GenSpec.ready I inv s -> pW <= MVA -> (pW | q) -> q + pW <= i_pos I s ->
  exists s', g_write R q usize_layout (word_src x) s = Ok tt s' /\ GenSpec.ready I inv s' /\
    i_pos I s' = i_pos I s /\ same_below (i_pos I s) (contents s') (blit (contents s) q pW (word_src x)).
Proof.
  intros HW (Hi & Hv) Hmv Hd Hle. cfg. unfold g_write.
  destruct (HW s q usize_layout 1 (word_src x) Hi) as (s' & E & Hi' & Hp & Hb).
  - apply usize_good; auto.
  - cbn; lia.
  - lia.
  - exact Hd.
  - cbn [l_size usize_layout]. lia.
  - exists s'. cbn [l_size usize_layout] in Hb. rewrite N.mul_1_r in Hb. ands; auto.
    split; [exact Hi'|]. rewrite Hp. exact Hv.
Qed.

Lemma g_overwrite_ptr_spec k z G q t :
  storage_for k R inv contents -> tracking k = true ->
  ginv k z G -> pW <= MVA -> (pW | q) -> q + pW <= gpos z -> t < gpos z ->
  ~ In q (map fst G) ->
  exists z', g_overwrite_ptr R k q t z = Ok tt z' /\
    ginv k z' (G ++ [(q, t)]) /\ gpos z' = gpos z /\ gz_map z' = gz_map z /\
    (forall i, i < gpos z -> (i < q \/ q + pW <= i) -> gbuf z' i = gbuf z i).
Proof.
  intros Hfor Hk Hz Hmv Hq Hqle Ht Hnew. cfg.
  pose proof (ginv_ok k z G Hz) as Hok.
  pose proof (ready_le _ Hok) as [Hpc Hcm].
  assert (Hzi : forall base w' pt',
     GenSpec.ready I inv w' -> i_pos I w' = gpos z ->
     same_below (gpos z) (contents w') (blit (gbuf z) q pW (word_src (base + t))) ->
     base + t < umod ->
     (forall bases, gkind_ok k z G bases -> length bases = length G ->
        gkind_ok k (mkGZ (gz_st z) (gz_map z) pt') (G ++ [(q, t)]) (bases ++ [base])) ->
     ginv k (mkGZ w' (gz_map z) pt') (G ++ [(q, t)])).
  { intros base w' pt' Hr' Hp' Hbl Hb Hkind. destruct Hz as (Hok' & Hin & Hnd & _ & bases & Hw & Hkd).
    unfold ginv; cbn [gz_st]. rewrite Hp'. ands.
    - exact Hr'.
    - intros q' t' Hqt. apply in_app_or in Hqt. cbn.
      destruct Hqt as [Hqt|[Heq|[]]]; [apply Hin; exact Hqt|inversion Heq; subst; auto].
    - rewrite map_app. cbn.
      clear - Hnd Hnew. revert Hnew. induction (map fst G) as [|x l IH]; cbn; intros Hn.
      + constructor; [intros []|constructor].
      + inversion Hnd; subst. constructor.
        * intros Hx. apply in_app_or in Hx. destruct Hx as [Hx|[Hx|[]]]; [auto|subst; apply Hn; auto].
        * apply IH; auto.
    - right; exact Hmv.
    - exists (bases ++ [base]). split.
      + unfold words_ok. apply Forall2_app.
        * eapply words_ok_ext; [|exact Hw]. intros q' t' Hqt i Hi. cbn.
          destruct (Hin q' t' Hqt) as (A & B & D).
          rewrite Hbl by lia. apply blit_out.
          assert (q' <> q) by (intros ->; apply Hnew; apply (in_map fst) in Hqt; exact Hqt).
          destruct (words_apart q' q); auto; lia.
        * constructor; [|constructor]. cbn. split; [exact Hb|].
          intros i Hi. rewrite Hbl by lia. rewrite blit_in by lia. f_equal. lia.
      + apply Hkind; [exact Hkd|]. symmetry. eapply F2_length; exact Hw. }
  assert (A1 : dassert (bind (g_capacity R) (fun c => bind (sub_u c pW) (fun d => ret (q <=? d)))) z = Ok tt z).
  { apply dassert_true. unfold bind, g_capacity, gets. rewrite sub_u_ok by lia. unfold ret.
    do 2 f_equal; lia. }
  assert (A2 : dassert (is_aligned_to q pW) z = Ok tt z).
  { apply dassert_true, is_aligned_to_true; [apply pW_pow2, (c_machine C)|exact Hq]. }
  assert (A3 : dassert (bind (g_capacity R) (fun c => ret (t <=? c))) z = Ok tt z).
  { apply dassert_true. unfold bind, g_capacity, gets, ret. do 2 f_equal; lia. }
  destruct k; try discriminate; cbn [g_overwrite_ptr].
  - cbn [storage_for] in Hfor.
    destruct (g_write_word_eq (gz_st z) q t Hfor Hok Hmv Hq Hqle) as (w' & E & Hr' & Hp' & Hb').
    exists (mkGZ w' (gz_map z) (gz_ptrs z)). cbn [gz_st gz_map]. ands; auto.
    + unfold g_po_overwrite_ptr. rewrite (bind_ok _ _ _ _ _ A1), (bind_ok _ _ _ _ _ A2), (bind_ok _ _ _ _ _ A3).
      apply glift_eq. exact E.
    + apply (Hzi 0); auto; [lia|].
      intros bases Hb _. cbn in *. apply Forall_app; split; auto.
    + intros i Hi Ho. rewrite Hb' by exact Hi. apply blit_out. lia.
  - cbn [storage_for] in Hfor. destruct Hfor as (Hw & Hct & _).
    destruct (Hct (gz_st z) (proj1 Hok) ltac:(lia)) as (L1 & L2 & L3).
    set (sa := r_as_ptr R (gz_st z)) in *.
    destruct (g_write_word_eq (gz_st z) q (sa + t) Hw Hok Hmv Hq Hqle) as (w' & E & Hr' & Hp' & Hb').
    set (pt := if negb (sa =? pg_addr (pt_current (gz_ptrs z)))
               then new_ptr_group (gz_ptrs z) sa else gz_ptrs z).
    exists (mkGZ w' (gz_map z) (mkPtrs (group_push (pt_current pt) q) (pt_past pt))).
    cbn [gz_st gz_map]. ands; auto.
    + unfold g_co_overwrite_ptr. rewrite (bind_ok _ _ _ _ _ A1), (bind_ok _ _ _ _ _ A2), (bind_ok _ _ _ _ _ A3).
      erewrite bind_ok by reflexivity. fold sa.
      erewrite bind_ok by (apply add_u_ok; lia).
      erewrite bind_ok by (apply glift_eq; exact E).
      erewrite bind_ok by reflexivity.
      unfold g_set_ptrs, modify. cbn. reflexivity.
    + apply (Hzi sa); auto; [lia|]. intros bases Hb Hlen. cbn [gkind_ok gz_ptrs] in *.
      subst pt. rewrite recs_push, Hb, map_app. cbn. rewrite combine_snoc; [reflexivity|].
      rewrite map_length. exact Hlen.
    + intros i Hi Ho. rewrite Hb' by exact Hi. apply blit_out. lia.
Qed.

End GenSerFacts.
