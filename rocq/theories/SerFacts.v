(** * SerFacts: the serializer operations, and how pieces of a serialization compose. *)
From Verif Require Import Base Types Storage Serializer Serialize Spec ArithFacts StorageFacts Frame MemFacts TypeFacts.
From Coq Require Import ZifyBool ZifyNat ZifyN.
Local Open Scope N_scope.

Section SerFacts.
Context {P : Params}.

Notation cap w := (s_cap (sw_s w)).
Notation pos w := (s_pos (sw_s w)).
Notation ptr w := (s_ptr (sw_s w)).
Notation buf w := (s_buf (sw_s w)).
Notation zpos z := (s_pos (sw_s (z_sw z))).
Notation zbuf z := (s_buf (sw_s (z_sw z))).
Notation zcap z := (s_cap (sw_s (z_sw z))).
Notation zptr z := (s_ptr (sw_s (z_sw z))).

(** ** The pointers written so far: (position of the pointer, target position) *)
Definition ptrlist := list (N * N).

Definition covers (i : N) (qt : N * N) : bool := (fst qt <=? i) && (i <? fst qt + pW).

(** The buffer as it is once every pointer is relative to base address [B]. *)
Definition overlay (G : ptrlist) (b : mem) (B : N) : mem :=
  fun i => match find (covers i) G with
           | Some (q, t) => word_src (B + t) (i - q)
           | None => b i
           end.

(** All (group address, position) pairs recorded by a Complete serializer. *)
Definition group_recs (g : pgroup) : list (N * N) := map (pair (pg_addr g)) (pg_pos g).
Definition recs (pt : ptrs) : list (N * N) :=
  flat_map group_recs (pt_past pt) ++ group_recs (pt_current pt).

Definition word_at_is (b : mem) (q x : N) : Prop := forall i, i < pW -> b (q + i) = word_src x i.

(** Pointer words hold base + target, for the bases listed. *)
Definition words_ok (b : mem) (G : ptrlist) (bases : list N) : Prop :=
  Forall2 (fun qt base => base + snd qt < umod /\ word_at_is b (fst qt) (base + snd qt)) G bases.

Definition kind_ok (k : kind) (z : zs) (G : ptrlist) (bases : list N) : Prop :=
  match k with
  | Complete => recs (z_ptrs z) = combine bases (map fst G)
  | PtrOffset => Forall (fun x => x = 0) bases
  | _ => G = []
  end.

Definition zinv (k : kind) (z : zs) (G : ptrlist) : Prop :=
  storage_ok (z_sw z) /\
  (forall q t, In (q, t) G -> (pW | q) /\ q + pW <= zpos z /\ t <= zpos z) /\
  NoDup (map fst G) /\
  (G = [] \/ pW <= MVA) /\
  exists bases, words_ok (zbuf z) G bases /\ kind_ok k z G bases.

(** ** Facts about overlay *)
Lemma covers_true i q t : covers i (q, t) = true <-> q <= i /\ i < q + pW.
Proof. unfold covers; cbn. lia. Qed.

Lemma overlay_none G b B i : (forall q t, In (q, t) G -> covers i (q, t) = false) -> overlay G b B i = b i.
Proof.
  intros H. unfold overlay. destruct (find (covers i) G) as [[q t]|] eqn:Ef; [|reflexivity].
  apply find_some in Ef. destruct Ef as [Hin Hc]. rewrite (H q t Hin) in Hc. discriminate.
Qed.

Lemma overlay_buf G b b' B i : b i = b' i -> overlay G b B i = overlay G b' B i.
Proof. intros H. unfold overlay. destruct (find (covers i) G) as [[q t]|]; auto. Qed.

Lemma overlay_app_r G1 G2 b B i :
  (forall q t, In (q, t) G2 -> covers i (q, t) = false) -> overlay (G1 ++ G2) b B i = overlay G1 b B i.
Proof.
  intros H. unfold overlay.
  induction G1 as [|[q t] G1 IH]; cbn [app find].
  - destruct (find (covers i) G2) as [[q t]|] eqn:Ef; [|reflexivity].
    apply find_some in Ef. destruct Ef as [Hin Hc]. rewrite (H q t Hin) in Hc. discriminate.
  - destruct (covers i (q, t)); auto.
Qed.

Lemma overlay_hit G b B q t i :
  0 < pW -> NoDup (map fst G) -> (forall q' t', In (q', t') G -> (pW | q')) ->
  In (q, t) G -> i < pW -> overlay G b B (q + i) = word_src (B + t) i.
Proof.
  intros Hw Hnd Hal Hin Hi. unfold overlay.
  destruct (find (covers (q + i)) G) as [[q' t']|] eqn:Ef.
  - apply find_some in Ef. destruct Ef as [Hin' Hc]. apply covers_true in Hc.
    assert (q' = q) as ->.
    { destruct (N.eq_dec q' q) as [|Hne]; [assumption|exfalso].
      destruct (words_apart q' q Hw (Hal _ _ Hin') (Hal _ _ Hin) Hne); lia. }
    assert (t' = t) as ->.
    { clear - Hnd Hin Hin'. induction G as [|[x y] G IH]; [contradiction|].
      cbn in Hnd. inversion Hnd as [|? ? Hx Hnd']; subst.
      destruct Hin as [H1|H1], Hin' as [H2|H2].
      - congruence.
      - inversion H1; subst. exfalso. apply Hx. apply (in_map fst) in H2. exact H2.
      - inversion H2; subst. exfalso. apply Hx. apply (in_map fst) in H1. exact H1.
      - auto. }
    f_equal. lia.
  - exfalso. apply find_none with (x := (q, t)) in Ef; [|exact Hin].
    assert (covers (q + i) (q, t) = true) by (apply covers_true; lia). congruence.
Qed.

Lemma F2_length {A B} (R : A -> B -> Prop) l1 l2 : Forall2 R l1 l2 -> length l1 = length l2.
Proof. induction 1; cbn; auto. Qed.

(** ** words_ok under buffer changes *)
Lemma words_ok_ext b b' G bases :
  (forall q t, In (q, t) G -> forall i, i < pW -> b' (q + i) = b (q + i)) ->
  words_ok b G bases -> words_ok b' G bases.
Proof.
  unfold words_ok. intros H HF. induction HF as [|[q t] base G bases [H1 H2] HF IH]; constructor.
  - split; [exact H1|]. intros i Hi. rewrite (H q t) by (auto; left; reflexivity). apply H2; exact Hi.
  - apply IH. intros q' t' Hin. apply (H q' t'). right; exact Hin.
Qed.

Section Cfg.
Hypothesis C : cfg_ok.
Hypothesis HA : alloc_ok.

Ltac cfg :=
  pose proof (c_SA_pos C); pose proof (c_MVA_pos C); pose proof (c_VA_pos C);
  pose proof (c_VA_MVA C); pose proof (c_MVA_SA C); pose proof (c_MAXC C);
  pose proof (c_MVA_le_MAXC C); pose proof (c_sum C); pose proof (c_umod C);
  pose proof (c_SA_lt_imax C); pose proof (pW_vals (c_machine C)).

Lemma zinv_ok k z G : zinv k z G -> storage_ok (z_sw z).
Proof. intros H; apply H. Qed.

(** A storage push keeps the invariant. *)
Lemma zinv_push k z G w' :
  zinv k z G -> storage_ok w' -> zpos z <= pos w' ->
  (forall i, i < zpos z -> buf w' i = zbuf z i) ->
  zinv k (mkZ w' (z_map z) (z_ptrs z)) G.
Proof.
  intros (Hok & Hin & Hnd & Hmv & bases & Hw & Hk) Hok' Hpos Hbuf.
  unfold zinv; cbn [z_sw]. ands; auto.
  - intros q t Hqt. destruct (Hin q t Hqt) as (A & B & D). ands; auto; lia.
  - exists bases. split; [|exact Hk].
    eapply words_ok_ext; [|exact Hw]. intros q t Hqt i Hi. cbn.
    destruct (Hin q t Hqt) as (A & B & D). apply Hbuf. lia.
Qed.

Lemma zinv_map k z G pm : zinv k z G -> zinv k (mkZ (z_sw z) pm (z_ptrs z)) G.
Proof. unfold zinv; cbn. destruct k; auto. Qed.

(** A raw write that touches no pointer word keeps the invariant. *)
Lemma zinv_write k z G p n data :
  zinv k z G ->
  (forall q t, In (q, t) G -> q + pW <= p \/ p + n <= q) ->
  zinv k (mkZ (placed (z_sw z) p n data (zpos z)) (z_map z) (z_ptrs z)) G.
Proof.
  intros (Hok & Hin & Hnd & Hmv & bases & Hw & Hk) Hdis.
  unfold zinv; cbn [z_sw z_ptrs]. ands; auto.
  exists bases. split; [|exact Hk].
  eapply words_ok_ext; [|exact Hw]. intros q t Hqt i Hi. cbn.
  apply blit_out. destruct (Hdis q t Hqt); lia.
Qed.

Lemma lift_eq {A} (m : M sw A) z a w' :
  m (z_sw z) = Ok a w' -> lift m z = Ok a (mkZ w' (z_map z) (z_ptrs z)).
Proof. intros H. unfold lift. rewrite H. reflexivity. Qed.

Lemma write_word_eq w q x :
  storage_ok w -> pW <= MVA -> (pW | q) -> q + pW <= pos w ->
  write q usize_layout (word_src x) w = Ok tt (placed w q pW (word_src x) (pos w)).
Proof.
  intros Hok Hmv Hd Hle. cfg. unfold write.
  pose proof (ok_pos_le w Hok). pose proof (ok_cap_le w Hok).
  rewrite (write_slice_eq C w q usize_layout 1 (word_src x)).
  - cbn [l_size usize_layout]. rewrite N.mul_1_r.
    destruct (N.eqb_spec pW 0); [lia|reflexivity].
  - apply usize_good; assumption.
  - lia.
  - cbn [l_size usize_layout]. lia.
  - exact Hd.
  - right; left. split; [lia|]. apply Hok. lia.
Qed.

(** ** overwrite_ptr *)
Definition ptr_written (k : kind) (z : zs) (q t : N) : zs :=
  match k with
  | Complete =>
      let pt := if negb (zptr z =? pg_addr (pt_current (z_ptrs z)))
                then new_ptr_group (z_ptrs z) (zptr z) else z_ptrs z in
      mkZ (placed (z_sw z) q pW (word_src (zptr z + t)) (zpos z)) (z_map z)
          (mkPtrs (group_push (pt_current pt) q) (pt_past pt))
  | _ => mkZ (placed (z_sw z) q pW (word_src t) (zpos z)) (z_map z) (z_ptrs z)
  end.

Lemma flat_map_app_r {A B} (f : A -> list B) l x : flat_map f (l ++ [x]) = flat_map f l ++ f x.
Proof. rewrite flat_map_app. cbn. rewrite app_nil_r. reflexivity. Qed.

Lemma recs_push pt sa q :
  let pt1 := if negb (sa =? pg_addr (pt_current pt)) then new_ptr_group pt sa else pt in
  recs (mkPtrs (group_push (pt_current pt1) q) (pt_past pt1)) = recs pt ++ [(sa, q)].
Proof.
  cbv zeta. unfold new_ptr_group, group_is_empty.
  destruct pt as [[ga gp] past]. cbn [pt_current pt_past pg_addr pg_pos].
  destruct (N.eqb_spec sa ga) as [->|Hne]; cbn [negb].
  - unfold recs, group_recs, group_push; cbn. rewrite map_app, app_assoc. reflexivity.
  - destruct gp as [|x gp]; unfold recs, group_recs, group_push; cbn [pt_current pt_past pg_addr pg_pos group_new].
    + cbn. rewrite app_nil_r. reflexivity.
    + cbn [map app]. rewrite flat_map_app_r. reflexivity.
Qed.

Lemma combine_snoc {A B} (l1 : list A) (l2 : list B) x y :
  length l1 = length l2 -> combine (l1 ++ [x]) (l2 ++ [y]) = combine l1 l2 ++ [(x, y)].
Proof.
  revert l2. induction l1 as [|a l1 IH]; intros [|b l2] H; cbn in *; try discriminate; auto.
  f_equal. apply IH. lia.
Qed.

Lemma overwrite_ptr_spec k z G q t :
  tracking k = true ->
  zinv k z G -> pW <= MVA -> (pW | q) -> q + pW <= zpos z -> t <= zpos z ->
  ~ In q (map fst G) ->
  overwrite_ptr k q t z = Ok tt (ptr_written k z q t) /\
  zinv k (ptr_written k z q t) (G ++ [(q, t)]).
Proof.
  intros Hk Hz Hmv Hq Hqle Ht Hnew. cfg.
  pose proof (zinv_ok k z G Hz) as Hok.
  pose proof (ok_pos_le _ Hok). pose proof (ok_cap_le _ Hok).
  assert (Hlegal : zptr z <> 0 /\ (SA | zptr z) /\ zptr z + zcap z < umod) by (apply Hok; lia).
  assert (Hzi : forall base pt',
     base + t < umod ->
     (forall bases, kind_ok k z G bases -> length bases = length G ->
        kind_ok k (mkZ (z_sw z) (z_map z) pt') (G ++ [(q, t)]) (bases ++ [base])) ->
     zinv k (mkZ (placed (z_sw z) q pW (word_src (base + t)) (zpos z)) (z_map z) pt') (G ++ [(q, t)])).
  { intros base pt' Hb Hkind. destruct Hz as (Hok' & Hin & Hnd & _ & bases & Hw & Hkd).
    unfold zinv; cbn [z_sw]. ands.
    - exact Hok'.
    - intros q' t' Hqt. apply in_app_or in Hqt. cbn.
      destruct Hqt as [Hqt|[Heq|[]]]; [apply Hin; exact Hqt|inversion Heq; subst; auto].
    - rewrite map_app. cbn.
      clear - Hnd Hnew. revert Hnew. induction (map fst G) as [|x l IH]; cbn; intros Hn.
      + constructor; [intros []|constructor].
      + inversion Hnd; subst. constructor.
        * intros Hx. apply in_app_or in Hx. destruct Hx as [Hx|[Hx|[]]]; [auto|subst; apply Hn; auto].
        * apply IH; auto.
    - right; exact Hmv.
    - exists (bases ++ [base]). split.
      + unfold words_ok. apply Forall2_app.
        * eapply words_ok_ext; [|exact Hw]. intros q' t' Hqt i Hi. cbn.
          apply blit_out. destruct (Hin q' t' Hqt) as (A & B & D).
          assert (q' <> q) by (intros ->; apply Hnew; apply (in_map fst) in Hqt; exact Hqt).
          destruct (words_apart q' q); auto; lia.
        * constructor; [|constructor]. cbn. split; [exact Hb|].
          intros i Hi. rewrite blit_in by lia. f_equal. lia.
      + apply Hkind; [exact Hkd|]. symmetry. eapply F2_length; exact Hw. }
  destruct k; try discriminate; cbn [overwrite_ptr ptr_written].
  - split.
    + unfold po_overwrite_ptr.
      erewrite bind_ok.
      2:{ apply dassert_true. unfold bind, ser_capacity, lift, get_cap, gets.
          rewrite sub_u_ok by lia. unfold ret. destruct z; do 2 f_equal; cbn in *; lia. }
      erewrite bind_ok by (apply dassert_true, is_aligned_to_true; [apply pW_pow2, (c_machine C)|exact Hq]).
      erewrite bind_ok.
      2:{ apply dassert_true. unfold bind, ser_capacity, lift, get_cap, gets, ret.
          destruct z; do 2 f_equal; cbn in *; lia. }
      apply lift_eq. apply write_word_eq; auto.
    + change (word_src t) with (word_src (0 + t)). apply (Hzi 0); [lia|].
      intros bases Hb _. cbn in *. apply Forall_app; split; auto.
  - split.
    + unfold co_overwrite_ptr.
      erewrite bind_ok.
      2:{ apply dassert_true. unfold bind, ser_capacity, lift, get_cap, gets.
          rewrite sub_u_ok by lia. unfold ret. destruct z; do 2 f_equal; cbn in *; lia. }
      erewrite bind_ok by (apply dassert_true, is_aligned_to_true; [apply pW_pow2, (c_machine C)|exact Hq]).
      erewrite bind_ok.
      2:{ apply dassert_true. unfold bind, ser_capacity, lift, get_cap, gets, ret.
          destruct z; do 2 f_equal; cbn in *; lia. }
      erewrite bind_ok.
      2:{ apply lift_eq. unfold as_ptr, get_ptr, gets. reflexivity. }
      erewrite bind_ok by (apply add_u_ok; lia).
      erewrite bind_ok.
      2:{ apply lift_eq. cbn [z_sw]. apply write_word_eq; auto. }
      erewrite bind_ok by reflexivity.
      unfold set_ptrs, modify. cbn. reflexivity.
    + apply Hzi; [lia|]. intros bases Hb Hlen. cbn [kind_ok z_ptrs] in *.
      rewrite recs_push, Hb, map_app. cbn. rewrite combine_snoc; [reflexivity|].
      rewrite map_length. exact Hlen.
Qed.

(** ** Pieces of a serialization

    [F]: the positions below pos() the piece may modify.  [ps]: the allocations it
    makes.  [R B M]: what it guarantees of any memory [M] holding, at base
    address [B], the output with pointers relative to [B]. *)
Definition fits_mem (z : zs) (z' : zs) (G : ptrlist) (F : N -> Prop) (B : N) (M : mem) : Prop :=
  forall i, (F i \/ (zpos z <= i /\ i < zpos z')) -> M (B + i) = overlay G (zbuf z') B i.

(** A mark among the allocations: a storage call of the client, which may move the buffer. *)
Definition busy : layout * N := (mkLayout 0 0, 0).

Notation zframe z := (frame_of (z_sw z)).

(** But for such calls, the storage is used exactly as by pushing the allocations. *)
Definition quiet (ps : list (layout * N)) (z z' : zs) : Prop :=
  ~ In busy ps -> fpushes ps (zframe z) = FOk (zframe z').

Lemma quiet_app_ ps1 ps2 z z1 z2 : quiet ps1 z z1 -> quiet ps2 z1 z2 -> quiet (ps1 ++ ps2) z z2.
Proof.
  unfold quiet. rewrite in_app_iff, fpushes_app. intros H1 H2 Hb.
  rewrite H1 by tauto. apply H2. tauto.
Qed.

(** Position [i] lies in one of the blocks allocated from position [cur] on. *)
Fixpoint in_blocks (cur : N) (ps : list (layout * N)) (i : N) : Prop :=
  match ps with
  | [] => False
  | (l, n) :: ps' =>
      (push_start cur l <= i /\ i < push_start cur l + l_size l * n) \/ in_blocks (push_end cur l n) ps' i
  end.

Lemma in_blocks_app ps1 ps2 : forall cur i,
  in_blocks cur (ps1 ++ ps2) i <-> in_blocks cur ps1 i \/ in_blocks (end_pos cur ps1) ps2 i.
Proof.
  induction ps1 as [|[l n] ps1 IH]; intros cur i; cbn [app in_blocks end_pos]; [tauto|].
  rewrite IH. tauto.
Qed.

(** What the buffer of [z] held at [i]; room added later is uninitialised. *)
Definition stale (z : zs) (i : N) : cell := if i <? zcap z then zbuf z i else None.

(** From pos() on only the blocks change; the pointers written lie in [F] or in the blocks. *)
Definition gaps (F : N -> Prop) (ps : list (layout * N)) (z z' : zs) (G' : ptrlist) : Prop :=
  ~ In busy ps ->
  zcap z <= zcap z' /\
  (forall i, zpos z <= i -> i < zcap z' -> ~ in_blocks (zpos z) ps i -> zbuf z' i = stale z i) /\
  (forall q t, In (q, t) G' -> forall i, q <= i -> i < q + pW -> F i \/ in_blocks (zpos z) ps i).

Definition quietly (F : N -> Prop) (ps : list (layout * N)) (z z' : zs) (G' : ptrlist) : Prop :=
  quiet ps z z' /\ gaps F ps z z' G'.

Lemma quietly_quiet F ps z z' G' : quietly F ps z z' G' -> quiet ps z z'.
Proof. intros [H _]; exact H. Qed.

Lemma quietly_same (F : N -> Prop) z z' G' :
  zframe z' = zframe z -> zpos z <= zcap z -> (forall i, ~ F i -> zbuf z' i = zbuf z i) ->
  (forall i, F i -> i < zpos z) ->
  (forall q t, In (q, t) G' -> forall i, q <= i -> i < q + pW -> F i) ->
  quietly F [] z z' G'.
Proof.
  intros E Hc Hb HF HG. split; [intros _; cbn; congruence|]. intros _.
  assert (Ec : zcap z' = zcap z) by (unfold frame_of in E; congruence).
  ands.
  - lia.
  - intros i Hi Hi2 _. unfold stale. rewrite (proj2 (N.ltb_lt _ _)) by lia. apply Hb.
    intros Hx. specialize (HF i Hx). lia.
  - intros q t Hin i H1 H2. left. eapply HG; eassumption.
Qed.

Lemma quietly_mono (F F' : N -> Prop) ps z z' G' :
  quietly F ps z z' G' -> (forall i, F i -> F' i) -> quietly F' ps z z' G'.
Proof.
  intros [H1 H2] HF. split; [exact H1|]. intros Hb. destruct (H2 Hb) as (A & B & D). ands; auto.
  intros q t Hin i Hi1 Hi2. destruct (D q t Hin i Hi1 Hi2); auto.
Qed.

Lemma quietly_app (F1 F2 F : N -> Prop) ps1 ps2 z z1 z2 G1 G2 :
  quietly F1 ps1 z z1 G1 -> quietly F2 ps2 z1 z2 G2 ->
  zpos z1 = end_pos (zpos z) ps1 -> zpos z1 <= zcap z1 ->
  (forall i, i < zpos z1 -> ~ F2 i -> zbuf z2 i = zbuf z1 i) ->
  (forall i, F1 i -> F i) ->
  (forall i, F2 i -> F i \/ in_blocks (zpos z) ps1 i) ->
  (forall i, F i -> i < zpos z) ->
  quietly F (ps1 ++ ps2) z z2 (G1 ++ G2).
Proof.
  intros [Q1 H1] [Q2 H2] Hp Hc Hb HF1 HF2 HF. split; [eapply quiet_app_; eassumption|].
  unfold gaps in *. rewrite in_app_iff. intros Hn.
  destruct (H1 ltac:(tauto)) as (A1 & A2 & A3). destruct (H2 ltac:(tauto)) as (B1 & B2 & B3). ands.
  - lia.
  - intros i Hi Hi2 Hno. rewrite in_blocks_app in Hno.
    destruct (N.lt_ge_cases i (zpos z1)) as [Hlt|Hge].
    + rewrite Hb; [apply A2; [exact Hi|lia|tauto]|exact Hlt|].
      intros Hx. destruct (HF2 i Hx) as [Hy|Hy]; [specialize (HF i Hy); lia|tauto].
    + rewrite B2; [|exact Hge|exact Hi2|rewrite Hp; tauto]. unfold stale at 1.
      destruct (N.ltb_spec i (zcap z1)); [apply A2; [exact Hi|assumption|tauto]|].
      unfold stale. destruct (N.ltb_spec i (zcap z)); [lia|reflexivity].
  - intros q t Hin i Hi1 Hi2. rewrite in_blocks_app. apply in_app_or in Hin. destruct Hin as [Hin|Hin].
    + destruct (A3 q t Hin i Hi1 Hi2); auto.
    + destruct (B3 q t Hin i Hi1 Hi2) as [Hx|Hx]; [destruct (HF2 i Hx); auto|].
      rewrite Hp in Hx. auto.
Qed.

(** The allocations do not fit; the allocator refuses. *)
Definition full (ps : list (layout * N)) (z z' : zs) : Prop :=
  MAXC < end_pos (zpos z) ps /\ (~ In busy ps -> fpushes ps (zframe z) = FFull (zframe z')).
Definition refused (ps : list (layout * N)) (z : zs) : Prop :=
  alloc_failed /\ (~ In busy ps -> fpushes ps (zframe z) = FAbort).

Lemma full_later ps1 ps2 z z1 z2 :
  quiet ps1 z z1 -> zpos z1 = end_pos (zpos z) ps1 -> full ps2 z1 z2 -> full (ps1 ++ ps2) z z2.
Proof.
  unfold quiet, full. rewrite in_app_iff, fpushes_app. intros H1 Hp [H2 H3]. split.
  - replace (end_pos (zpos z) (ps1 ++ ps2)) with (end_pos (zpos z1) ps2); [exact H2|].
    rewrite Hp. clear. generalize (zpos z). induction ps1 as [|[l n] ps1 IH]; intros p; cbn; auto.
  - intros Hb. rewrite H1 by tauto. apply H3. tauto.
Qed.

Lemma refused_later ps1 ps2 z z1 : quiet ps1 z z1 -> refused ps2 z1 -> refused (ps1 ++ ps2) z.
Proof.
  unfold quiet, refused. rewrite in_app_iff, fpushes_app. intros H1 [H2 H3]. split; [exact H2|].
  intros Hb. rewrite H1 by tauto. apply H3. tauto.
Qed.

Lemma refused_first ps1 ps2 z : refused ps1 z -> refused (ps1 ++ ps2) z.
Proof.
  unfold refused. rewrite in_app_iff, fpushes_app. intros [H2 H3]. split; [exact H2|].
  intros Hb. rewrite H3 by tauto. reflexivity.
Qed.

(** Why it may stop: code of the client panics, or the output does not fit. *)
Definition stopped (e : panic) (full : Prop) : Prop := e = PUser \/ (e = PCapacity /\ full).

Lemma stopped_imp e (X Y : Prop) : stopped e X -> (X -> Y) -> stopped e Y.
Proof. unfold stopped. tauto. Qed.

Definition done (k : kind) (z : zs) (G : ptrlist) (F : N -> Prop) (ps : list (layout * N))
    (R : N -> mem -> Prop) {A} (o : outcome zs A) : Prop :=
  match o with
  | Ok _ z' => exists G',
      zinv k z' (G ++ G') /\ z_map z' = z_map z /\
      zpos z' = end_pos (zpos z) ps /\ zpos z <= zpos z' /\ zpos z' <= MAXC /\
      (forall q t, In (q, t) G' ->
         (forall i, q <= i -> i < q + pW -> F i) \/ (zpos z <= q /\ q + pW <= zpos z')) /\
      (forall i, i < zpos z -> ~ F i -> zbuf z' i = zbuf z i) /\
      quietly F ps z z' G' /\ extends (z_sw z) (z_sw z') /\
      (forall B M, (MVA | B) -> B + zpos z' < umod -> fits_mem z z' (G ++ G') F B M -> R B M)
  | Panic e z' =>
      stopped e (full ps z z') /\ storage_ok (z_sw z') /\
      extends (z_sw z) (z_sw z') /\ zpos z <= zpos z' /\
      (forall i, i < zpos z -> ~ F i -> zbuf z' i = zbuf z i) /\
      (exists G', zinv k z' (G ++ G') /\
         forall q t, In (q, t) G' -> (forall i, q <= i -> i < q + pW -> F i) \/ zpos z <= q)
  | Abort => refused ps z
  | UB | OutOfFuel => False
  end.

(** What must hold before a piece working on region [F] of the output, a copy
    (at [p]) of the input memory [m] at [a]. *)
Definition ready (k : kind) (z : zs) (G : ptrlist) (F : N -> Prop) (m : mem) (p a : N) : Prop :=
  zinv k z G /\
  (forall i, F i -> p <= i /\ i < zpos z /\ zbuf z i = m (a + (i - p))) /\
  (forall q t, In (q, t) G -> forall i, q <= i -> i < q + pW -> ~ F i) /\
  (tracking k = true -> pm_in (z_map z) <= a /\ p = a - pm_in (z_map z) + pm_out (z_map z)).

Lemma ready_sub k z G F (F' : N -> Prop) m p a :
  ready k z G F m p a -> (forall i, F' i -> F i) -> ready k z G F' m p a.
Proof.
  intros (A & B & D & E) H. unfold ready. ands; auto. intros q t Hin i H1 H2 HF. eapply D; eauto.
Qed.

(** Moving the reference point. *)
Lemma ready_shift k z G F m p a d :
  ready k z G F m p a -> (forall i, F i -> p + d <= i) -> ready k z G F m (p + d) (a + d).
Proof.
  intros (A & B & D & E) H. unfold ready. ands; auto.
  - intros i HF. destruct (B i HF) as (B1 & B2 & B3). pose proof (H i HF). ands; auto.
    rewrite B3. f_equal. lia.
  - intros Hk. destruct (E Hk) as [E1 E2]. split; lia.
Qed.

Lemma end_pos_app p ps1 ps2 : end_pos p (ps1 ++ ps2) = end_pos (end_pos p ps1) ps2.
Proof. revert p. induction ps1 as [|[l n] ps1 IH]; intros p; cbn; auto. Qed.

Lemma push_end_ge_pos p l n : p <= push_end p l n.
Proof.
  cfg. unfold push_end, push_start.
  pose proof (round_up_ge p (N.max (l_align l) VA) ltac:(lia)).
  pose proof (round_up_ge (round_up p (N.max (l_align l) VA) + l_size l * n) VA ltac:(lia)). lia.
Qed.

Lemma end_pos_ge p ps : p <= end_pos p ps.
Proof.
  revert p. induction ps as [|[l n] ps IH]; intros p; cbn; [lia|].
  pose proof (push_end_ge_pos p l n). pose proof (IH (push_end p l n)). lia.
Qed.

Lemma full_first ps1 ps2 z z' : full ps1 z z' -> full (ps1 ++ ps2) z z'.
Proof.
  unfold full. rewrite in_app_iff, fpushes_app, end_pos_app. intros [H1 H2].
  pose proof (end_pos_ge (end_pos (zpos z) ps1) ps2). split; [lia|].
  intros Hb. rewrite H2 by tauto. reflexivity.
Qed.

(** What fits the capacity moves nothing. *)
Lemma quiet_fit ps z z' : quiet ps z z' -> ~ In busy ps -> end_pos (zpos z) ps <= zcap z ->
  zptr z' = zptr z /\ zcap z' = zcap z /\
  sw_calls (z_sw z') = sw_calls (z_sw z) /\ sw_trace (z_sw z') = sw_trace (z_sw z).
Proof. intros H Hb Hle. exact (fpushes_fit C ps _ _ (H Hb) Hle). Qed.

Lemma done_weaken k z G F (F' : N -> Prop) ps (R R' : N -> mem -> Prop) {A} (o : outcome zs A) :
  done k z G F ps R o ->
  (forall i, F i -> F' i) ->
  (forall B M, (MVA | B) -> R B M -> 
      forall z' G', fits_mem z z' (G ++ G') F' B M ->
        (forall q t, In (q, t) G' ->
          (forall i, q <= i -> i < q + pW -> F i) \/ (zpos z <= q /\ q + pW <= zpos z')) ->
        (forall i, i < zpos z -> ~ F i -> zbuf z' i = zbuf z i) -> R' B M) ->
  done k z G F' ps R' o.
Proof.
  intros H HF HR. destruct o as [a z'|e z'| | |]; auto; cbn in *.
  - destruct H as (G' & H1 & H2 & H3 & H4 & H5 & H6 & H7 & H8 & H9 & H10).
    exists G'. ands; auto.
    + intros q t Hin. destruct (H6 q t Hin) as [Hx|Hx]; [left; auto|right; exact Hx].
    + eapply quietly_mono; eassumption.
    + intros B M HB Hle Hfit. eapply HR; eauto. apply H10; auto.
      intros i Hi. apply Hfit. destruct Hi as [Hi|Hi]; auto.
  - destruct H as (H2 & H3 & H4 & H5 & H6 & G' & H7 & H8). ands; auto.
    exists G'. split; [exact H7|]. intros q t Hin. destruct (H8 q t Hin) as [Hx|Hx]; auto.
Qed.

Lemma done_imp k z G F ps (R R' : N -> mem -> Prop) {A} (o : outcome zs A) :
  done k z G F ps R o -> (forall B M, (MVA | B) -> B + zpos z <= umod -> R B M -> R' B M) -> done k z G F ps R' o.
Proof.
  intros H HR. destruct o as [a z'|e z'| | |]; auto; cbn in *.
  destruct H as (G' & H1 & H2 & H3 & H4 & H5 & H6 & H7 & H8 & H9 & H10).
  exists G'. ands; auto. intros. apply HR; auto. lia.
Qed.

(** A piece that does nothing: the region keeps the input's bytes. *)
Lemma done_ret k z G F m p a (R : N -> mem -> Prop) :
  ready k z G F m p a ->
  (forall B M, (forall i, F i -> M (B + i) = m (a + (i - p))) -> R B M) ->
  done k z G F [] R (ret tt z).
Proof.
  intros (A & B & D & E) HR. cbn. exists []. rewrite app_nil_r.
  pose proof (zinv_ok _ _ _ A) as Hok. pose proof (ok_pos_le _ Hok). pose proof (ok_cap_le _ Hok).
  ands; auto; try lia.
  - intros q t [].
  - apply quietly_same; auto; [intros i HF; apply B; exact HF|intros q t []].
  - apply extends_refl.
  - intros B' M HB Hle Hfit. apply HR. intros i HF. rewrite Hfit by auto.
    rewrite overlay_none; [apply B; exact HF|].
    intros q t Hin. destruct (covers i (q, t)) eqn:Ec; [|reflexivity].
    apply covers_true in Ec. exfalso. eapply D; try eassumption; lia.
Qed.

(** A piece after a piece. *)
Lemma done_seq k z G F1 F2 ps1 ps2 (R1 R2 : N -> mem -> Prop) m p a {A} (f1 : M zs A) (f2 : A -> M zs unit) :
  ready k z G (fun i => F1 i \/ F2 i) m p a ->
  (forall i, F1 i -> ~ F2 i) ->
  done k z G F1 ps1 R1 (f1 z) ->
  (forall x z1 G1, f1 z = Ok x z1 -> ready k z1 (G ++ G1) F2 m p a -> z_map z1 = z_map z ->
     zpos z1 = end_pos (zpos z) ps1 ->
     done k z1 (G ++ G1) F2 ps2 R2 (f2 x z1)) ->
  done k z G (fun i => F1 i \/ F2 i) (ps1 ++ ps2) (fun B M => R1 B M /\ R2 B M) (bind f1 f2 z).
Proof.
  intros (Hz & Hcp & Hnp & Hmap) Hdis H1 H2. cfg. unfold bind.
  destruct (f1 z) as [x z1|e z1| | |] eqn:Ef; auto.
  3:{ cbn in *. apply refused_first; assumption. }
  2:{ cbn in *. destruct H1 as (B2 & B3 & B4 & B5 & B6 & G' & B7 & B8). ands; auto.
      - eapply stopped_imp; [exact B2|]. apply full_first.
      - exists G'. split; [exact B7|]. intros q t Hin. destruct (B8 q t Hin) as [Hx|Hx]; auto. }
  cbn in H1. destruct H1 as (G1 & I1 & I2 & I3 & I4 & I5 & I6 & I7 & I8 & I9 & I10).
  assert (Hr2 : ready k z1 (G ++ G1) F2 m p a).
  { unfold ready. ands; auto.
    - intros i HF. destruct (Hcp i (or_intror HF)) as (C1 & C2 & C3). ands; [lia|lia|].
      rewrite I7; [exact C3|lia|]. intros HF1. apply (Hdis i HF1 HF).
    - intros q t Hin i Hi1 Hi2 HF. apply in_app_or in Hin. destruct Hin as [Hin|Hin].
      + eapply Hnp; eauto.
      + destruct (I6 q t Hin) as [Hx|[Hx1 Hx2]].
        * apply (Hdis i); auto.
        * destruct (Hcp i (or_intror HF)) as (C1 & C2 & C3). lia.
    - rewrite I2. exact Hmap. }
  specialize (H2 x z1 G1 eq_refl Hr2 I2 I3).
  destruct (f2 x z1) as [y z2|e z2| | |]; auto.
  3:{ cbn in *. eapply refused_later; [eapply quietly_quiet; eassumption|eassumption]. }
  - cbn in H2. destruct H2 as (G2 & J1 & J2 & J3 & J4 & J5 & J6 & J7 & J8 & J9 & J10).
    cbn. exists (G1 ++ G2). rewrite app_assoc. ands; auto; try lia.
    + congruence.
    + rewrite end_pos_app, <- I3. exact J3.
    + intros q t Hin. apply in_app_or in Hin. destruct Hin as [Hin|Hin].
      * destruct (I6 q t Hin) as [Hx|Hx]; [left; auto|right; lia].
      * destruct (J6 q t Hin) as [Hx|Hx]; [left; auto|right; lia].
    + intros i Hi HF. rewrite J7 by (try lia; tauto). apply I7; [lia|tauto].
    + eapply quietly_app; try eassumption; auto.
      * apply ok_pos_le. apply (zinv_ok _ _ _ I1).
      * intros i Hi. apply (Hcp i Hi).
    + eapply extends_trans; eassumption.
    + intros B M HB Hle Hfit. split.
      * apply I10; [exact HB|lia|]. intros i Hi.
        rewrite Hfit.
        2:{ destruct Hi as [Hi|Hi]; [left; auto|right; lia]. }
        assert (HnF2 : ~ F2 i).
        { destruct Hi as [Hi|Hi]; [apply Hdis; exact Hi|].
          intros HF. destruct (Hcp i (or_intror HF)) as (C1 & C2 & C3). lia. }
        assert (i < zpos z1).
        { destruct Hi as [Hi|Hi]; [|lia]. destruct (Hcp i (or_introl Hi)); lia. }
        rewrite overlay_app_r.
        -- apply overlay_buf. apply J7; auto.
        -- intros q t Hin. destruct (covers i (q, t)) eqn:Ec; [|reflexivity].
           apply covers_true in Ec. exfalso.
           destruct (J6 q t Hin) as [Hx|Hx]; [|lia]. apply HnF2. apply Hx; lia.
      * apply J10; [exact HB|lia|]. intros i Hi. apply Hfit.
        destruct Hi as [Hi|Hi]; [left; auto|right; lia].
  - cbn in H2 |- *. destruct H2 as (B2 & B3 & B4 & B5 & B6 & G' & B7 & B8). ands; auto; try lia.
    + eapply stopped_imp; [exact B2|]. apply full_later; [eapply quietly_quiet; eassumption|assumption].
    + eapply extends_trans; eassumption.
    + intros i Hi HF. rewrite B6 by (try lia; tauto). apply I7; [lia|tauto].
    + exists (G1 ++ G'). rewrite app_assoc. split; [exact B7|]. intros q t Hin.
      apply in_app_or in Hin. destruct Hin as [Hin|Hin].
      * destruct (I6 q t Hin) as [Hx|Hx]; [left; auto|right; lia].
      * destruct (B8 q t Hin) as [Hx|Hx]; [left; auto|right; lia].
Qed.

End Cfg.
End SerFacts.
