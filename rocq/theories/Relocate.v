(** * Relocate: the outputs of hand-written implementations moved to another address (used by PropRelocate, C91). *)
From Coq Require Import Arith.
From Verif Require Import Base Types Storage Serializer Serialize Spec ArithFacts StorageFacts StorageHist MemFacts TypeFacts SerFacts
  SerMain SerValue SerRoot SerProps PropGaps PropTree Load Build Client ClientSpec ClientFacts GenClientSpec.
From Coq Require Import ZifyBool ZifyNat ZifyN.
Local Open Scope N_scope.

(** ** Specification: the pointer words of an output *)
Section Words.
Context {P : Params}.
Variable E : tenv.

(** The implementation delegates no fields ([SField]); one that does is stated by writing out the calls its fields make. *)
Fixpoint no_fields (s : step) : bool :=
  match s with
  | SField _ _ _ => false
  | SPush _ _ _ _ body => forallb no_fields body
  | _ => true
  end.

(** The positions of the pointer words written for a call, [p] being the position of the value being
    processed and [cur] that where the next allocation may start. *)
Fixpoint step_words (p cur : N) (s : step) : list N :=
  match s with
  | SPush off l _ n body =>
      let q := slice_pos cur l in
      (p + off) ::
      (fix go (cur : N) (ss : list step) : list N :=
         match ss with
         | [] => []
         | s :: ss' => step_words q cur s ++ go (step_end E cur s) ss'
         end) (slice_end cur l n) body
  | SPushPlain off _ _ _ => [p + off]
  | _ => []
  end.
Fixpoint steps_words (p cur : N) (ss : list step) : list N :=
  match ss with
  | [] => []
  | s :: ss' => step_words p cur s ++ steps_words p (step_end E cur s) ss'
  end.
(** Of several values, one after the other. *)
Fixpoint roots_words (cur : N) (rs : list (layout * N * list step)) : list N :=
  match rs with
  | [] => []
  | (l, a, ss) :: rs' =>
      steps_words (push_start cur l) (push_end cur l 1) ss ++ roots_words (steps_end E (push_end cur l 1) ss) rs'
  end.
End Words.

(** [M'] at [B'] has what [M] has at [B], the first [len] bytes, but for the pointer words at positions [hs],
    which are adjusted to the new place. *)
Definition moved_to {P : Params} (M : mem) (B : N) (M' : mem) (B' : N) (len : N) (hs : list N) : Prop :=
  (forall i, i < len -> (forall q, In q hs -> i < q \/ q + pW <= i) -> M' (B' + i) = M (B + i)) /\
  (forall q x, In q hs -> read_word M (B + q) = Some x -> read_word M' (B' + q) = Some (B' + (x - B))).

Section Facts.
Context {P : Params}.
Hypothesis C : cfg_ok.
Variable E : tenv.
Hypothesis HE : wf_env E.
Variable m : mem.
Variable fuel : nat.

Lemma words_push p cur off l tp n body :
  step_words E p cur (SPush off l tp n body) = (p + off) :: steps_words E (slice_pos cur l) (slice_end cur l n) body.
Proof.
  cbn [step_words]. f_equal. generalize (slice_end cur l n). generalize (slice_pos cur l) as q.
  induction body as [|s ss IH]; intros q c; [reflexivity|]. cbn [steps_words]. rewrite <- IH. reflexivity.
Qed.

(** Where the calls put things. *)
Lemma slice_inside cur l n : pow2 (l_align l) -> l_size l * n <> 0 ->
  cur <= slice_pos cur l /\ slice_pos cur l + l_size l * n <= slice_end cur l n.
Proof.
  intros Hl Hn. assert (Hs : l_size l <> 0) by (intros X; rewrite X in Hn; lia).
  rewrite slice_pos_sized, slice_end_sized by exact Hs. split; [apply push_start_ge; [exact C|exact Hl]|].
  unfold push_end. apply round_up_ge. pose proof (c_VA C). apply pow2_pos. apply C.
Qed.

Lemma end_push cur off l tp n body : step_end E cur (SPush off l tp n body) = steps_end E (slice_end cur l n) body.
Proof. reflexivity. Qed.
Lemma slice_before cur l n : slice_pos cur l + l_size l * n <= slice_end cur l n.
Proof.
  unfold slice_pos, slice_end. destruct (N.eqb_spec (l_size l) 0) as [Z|Z]; [rewrite Z; lia|]. apply push_end_ge. exact C.
Qed.
Lemma step_end_ge size al a s cur : step_ok E m fuel size al a s -> (VA | cur) ->
  cur <= step_end E cur s /\ (VA | step_end E cur s).
Proof.
  intros Hs Hc. rewrite <- (step_allocs_end C E m fuel _ _ _ _ Hs cur Hc). split; [apply end_pos_ge; exact C|].
  apply end_pos_VA. exact Hc.
Qed.
Lemma steps_end_ge size al a ss cur : steps_ok E m fuel size al a ss -> (VA | cur) -> cur <= steps_end E cur ss.
Proof.
  intros Hs Hc. rewrite <- (steps_allocs_end C E m fuel _ _ _ _ Hs cur Hc). apply end_pos_ge; exact C.
Qed.

Definition step_where (size al a : N) (s : step) : Prop :=
  no_fields s = true -> forall p cur q, (VA | cur) -> In q (step_words E p cur s) ->
  (p <= q /\ forall i, i < pW -> touched E s (q - p + i)) \/ (cur <= q /\ q + pW <= step_end E cur s).
Definition steps_where (size al a : N) (ss : list step) : Prop :=
  forallb no_fields ss = true -> forall p cur q, (VA | cur) -> In q (steps_words E p cur ss) ->
  (p <= q /\ exists s, In s ss /\ forall i, i < pW -> touched E s (q - p + i)) \/ (cur <= q /\ q + pW <= steps_end E cur ss).

Lemma words_where : forall size al a ss, steps_ok E m fuel size al a ss -> steps_where size al a ss.
Proof.
  pose proof (pW_vals (c_machine C)) as HW.
  apply (steps_ok_mut P E m fuel (fun size al a s _ => step_where size al a s)
             (fun size al a ss _ => steps_where size al a ss)); unfold step_where, steps_where.
  - intros size al a off l tp n body Hoff Hpo Hpa Hsl Hb IH Hn p cur q Hc Hq. cbn [no_fields] in Hn.
    rewrite words_push in Hq. destruct Hq as [<-|Hq].
    + left. split; [lia|]. intros i Hi. unfold touched. cbn [touch]. lia.
    + right. rewrite end_push.
      destruct (IH Hn _ _ q (slice_end_VA cur l n Hc) Hq) as [(H1 & s & Hs & Ht)|[H1 H2]].
      * assert (Hi : forall i, i < pW -> q - slice_pos cur l + i < l_size l * n).
        { intros i Hi. exact (touched_inside E m fuel _ _ _ _ Hb s _ Hs (Ht i Hi)). }
        pose proof (Hi (pW - 1) ltac:(lia)). pose proof (Hi 0 ltac:(lia)).
        destruct (slice_inside cur l n) as [I1 I2]; [apply Hsl|lia|].
        pose proof (steps_end_ge _ _ _ _ (slice_end cur l n) Hb (slice_end_VA cur l n Hc)). lia.
      * pose proof (slice_end_ge C cur l n). split; [lia|exact H2].
  - intros size al a off l tp n Hoff Hpo Hpa Hsl Hn p cur q Hc [<-|[]]. left. split; [lia|]. intros i Hi. unfold touched. cbn [touch]. lia.
  - intros; contradiction.
  - intros; contradiction.
  - intros; contradiction.
  - intros; contradiction.
  - intros; contradiction.
  - intros; contradiction.
  - intros size al a s ss Hs IH1 Hd Hss IH2 Hn p cur q Hc Hq. cbn [forallb] in Hn. apply andb_prop in Hn. destruct Hn as [Hn1 Hn2].
    cbn [steps_words] in Hq. unfold steps_end. cbn [fold_left]. fold (steps_end E (step_end E cur s) ss).
    destruct (step_end_ge _ _ _ _ cur Hs Hc) as [G1 G2]. pose proof (steps_end_ge _ _ _ _ (step_end E cur s) Hss G2) as G3.
    apply in_app_or in Hq. destruct Hq as [Hq|Hq].
    + destruct (IH1 Hn1 p cur q Hc Hq) as [[H1 H2]|H1]; [left; split; [exact H1|exists s; split; [left; reflexivity|exact H2]]|right; lia].
    + destruct (IH2 Hn2 p _ q G2 Hq) as [[H1 (s' & H2 & H3)]|H1]; [left; split; [exact H1|exists s'; split; [right; exact H2|exact H3]]|right; lia].
Qed.
Lemma word_where size al a s : step_ok E m fuel size al a s -> step_where size al a s.
Proof.
  intros Hs Hn p cur q Hc Hq.
  assert (Hss : steps_ok E m fuel size al a [s]) by (constructor; [exact Hs|intros s' i []|constructor]).
  destruct (words_where _ _ _ _ Hss ltac:(cbn [forallb]; rewrite Hn; reflexivity) p cur q Hc) as [(H1 & s' & [<-|[]] & H2)|H1].
  - cbn [steps_words]. rewrite app_nil_r. exact Hq.
  - left. auto.
  - right. exact H1.
Qed.

(** The words of a call and those of the calls after it are apart. *)
Lemma apart size al a s ss p cur q q' :
  step_ok E m fuel size al a s -> steps_ok E m fuel size al a ss ->
  (forall s' i, In s' ss -> touched E s i -> ~ touched E s' i) ->
  no_fields s = true -> forallb no_fields ss = true -> (VA | cur) -> p + size <= cur ->
  In q (step_words E p cur s) -> In q' (steps_words E p (step_end E cur s) ss) -> disjoint q pW q' pW.
Proof.
  intros Hs Hss Hd N1 N2 Hc Hpc Hq Hq'. pose proof (pW_vals (c_machine C)) as HW.
  destruct (step_end_ge _ _ _ _ cur Hs Hc) as [G1 G2].
  assert (Hin : forall i, touched E s i -> i < size).
  { intros i Hi. refine (touched_inside E m fuel size al a [s] _ s i (or_introl eq_refl) Hi). constructor; [exact Hs|intros s' j []|constructor]. }
  assert (Hin' : forall s' i, In s' ss -> touched E s' i -> i < size) by (intros s' i; apply (touched_inside E m fuel size al a ss Hss)).
  unfold disjoint.
  destruct (word_where _ _ _ _ Hs N1 p cur q Hc Hq) as [[H1 H2]|[H1 H2]];
  destruct (words_where _ _ _ _ Hss N2 p _ q' G2 Hq') as [(J1 & s' & J2 & J3)|[J1 J2]].
  - assert (X : forall i, i < pW -> q - p + i < q' - p \/ q' - p + pW <= q - p + i).
    { intros i Hi. destruct (N.lt_ge_cases (q - p + i) (q' - p)) as [?|?]; [auto|]. right.
      destruct (N.le_gt_cases (q' - p + pW) (q - p + i)) as [?|?]; [auto|]. exfalso. apply (Hd s' (q - p + i) J2 (H2 i Hi)).
      replace (q - p + i) with (q' - p + (q - p + i - (q' - p))) by lia. apply J3. lia. }
    pose proof (X 0 ltac:(lia)) as [X0|X0]; [|lia]. left.
    destruct (N.le_gt_cases (q + pW) q') as [?|?]; [auto|]. exfalso.
    pose proof (X (q' - q) ltac:(lia)). lia.
  - pose proof (Hin _ (H2 (pW - 1) ltac:(lia))). left. lia.
  - pose proof (Hin' _ _ J2 (J3 (pW - 1) ltac:(lia))). right. lia.
  - left. lia.
Qed.

Definition cov (hs : list N) (i : N) : Prop := exists q, In q hs /\ q <= i /\ i < q + pW.

(** ** They are apart from one another *)
Lemma words_apart : forall size al a ss, steps_ok E m fuel size al a ss ->
  forallb no_fields ss = true -> forall p cur, (VA | cur) -> p + size <= cur -> separate (words pW (steps_words E p cur ss)).
Proof.
  pose proof (pW_vals (c_machine C)) as HW.
  apply (steps_ok_mut P E m fuel
    (fun size al a s _ => no_fields s = true -> forall p cur, (VA | cur) -> p + size <= cur -> separate (words pW (step_words E p cur s)))
    (fun size al a ss _ => forallb no_fields ss = true -> forall p cur, (VA | cur) -> p + size <= cur -> separate (words pW (steps_words E p cur ss)))).
  - intros size al a off l tp n body Hoff Hpo Hpa Hsl Hb IH Hn p cur Hc Hpc. cbn [no_fields] in Hn. rewrite words_push.
    cbn [words map]. fold (words pW (steps_words E (slice_pos cur l) (slice_end cur l n) body)).
    constructor; [|apply IH; [exact Hn|apply slice_end_VA; exact Hc|apply slice_before]].
    apply Forall_forall. intros [x w] Hx. apply in_map_iff in Hx. destruct Hx as (q & Hx & Hq). inversion Hx; subst. cbn [fst snd].
    left. destruct (words_where _ _ _ _ Hb Hn _ _ x (slice_end_VA cur l n Hc) Hq) as [(H1 & s & Hs & Ht)|[H1 H2]].
    + assert (Hi : forall i, i < pW -> x - slice_pos cur l + i < l_size l * n).
      { intros i Hi. exact (touched_inside E m fuel _ _ _ _ Hb s _ Hs (Ht i Hi)). }
      pose proof (Hi 0 ltac:(lia)). destruct (slice_inside cur l n) as [I1 I2]; [apply Hsl|lia|]. lia.
    + pose proof (slice_end_ge C cur l n). lia.
  - intros. cbn [step_words words map]. constructor; constructor.
  - intros. constructor.
  - intros. constructor.
  - intros. constructor.
  - intros. constructor.
  - intros. constructor.
  - intros. constructor.
  - intros size al a s ss Hs IH1 Hd Hss IH2 Hn p cur Hc Hpc. cbn [forallb] in Hn. apply andb_prop in Hn. destruct Hn as [Hn1 Hn2].
    destruct (step_end_ge _ _ _ _ cur Hs Hc) as [G1 G2].
    cbn [steps_words]. rewrite words_app. apply fop_app_intro; [apply IH1; auto|apply IH2; auto; lia|].
    intros x y Hx Hy. apply in_map_iff in Hx. apply in_map_iff in Hy. destruct Hx as (q & <- & Hq). destruct Hy as (q' & <- & Hq'). cbn [fst snd].
    exact (apart size al a s ss p cur q q' Hs Hss Hd Hn1 Hn2 Hc Hpc Hq Hq').
Qed.

(** ** Several values *)
Definition root_no_fields (r : layout * N * list step) : Prop := forallb no_fields (snd r) = true.

Lemma roots_end_ge rs : Forall (root_in E m fuel) rs -> forall cur, cur <= roots_end E cur rs.
Proof.
  induction 1 as [|[[l a] ss] rs (R1 & R2 & R3 & R4) Hrs IH]; intros cur; cbn [roots_end]; [lia|].
  pose proof (steps_end_ge _ _ _ _ (push_end cur l 1) R4 (push_end_VA cur l 1)).
  pose proof (push_start_ge C cur l ltac:(apply R1)). pose proof (push_end_ge C cur l 1). specialize (IH (steps_end E (push_end cur l 1) ss)). lia.
Qed.
Lemma root_where l a ss cur q : root_in E m fuel (l, a, ss) -> forallb no_fields ss = true ->
  In q (steps_words E (push_start cur l) (push_end cur l 1) ss) -> cur <= q /\ q + pW <= steps_end E (push_end cur l 1) ss.
Proof.
  intros (R1 & R2 & R3 & R4) Hn Hq. pose proof (pW_vals (c_machine C)) as HW.
  pose proof (steps_end_ge _ _ _ _ (push_end cur l 1) R4 (push_end_VA cur l 1)).
  pose proof (push_start_ge C cur l ltac:(apply R1)). pose proof (push_end_ge C cur l 1).
  destruct (words_where _ _ _ _ R4 Hn _ _ q (push_end_VA cur l 1) Hq) as [(H3 & s & Hs & Ht)|H3]; [|lia].
  pose proof (touched_inside E m fuel _ _ _ _ R4 s _ Hs (Ht (pW - 1) ltac:(lia))). lia.
Qed.
Lemma roots_where rs : Forall (root_in E m fuel) rs -> Forall root_no_fields rs -> forall cur q,
  In q (roots_words E cur rs) -> cur <= q /\ q + pW <= roots_end E cur rs.
Proof.
  induction 1 as [|[[l a] ss] rs HR Hrs IH]; intros Hn cur q Hq; cbn [roots_words roots_end] in *; [contradiction|].
  inversion Hn as [|? ? N1 N2]; subst. unfold root_no_fields in N1. cbn [snd] in N1. apply in_app_or in Hq.
  destruct HR as (R1 & R2 & R3 & R4).
  pose proof (steps_end_ge _ _ _ _ (push_end cur l 1) R4 (push_end_VA cur l 1)).
  pose proof (push_start_ge C cur l ltac:(apply R1)). pose proof (push_end_ge C cur l 1).
  pose proof (roots_end_ge rs Hrs (steps_end E (push_end cur l 1) ss)).
  destruct Hq as [Hq|Hq].
  - pose proof (root_where l a ss cur q ltac:(unfold root_in; auto) N1 Hq). lia.
  - pose proof (IH N2 _ _ Hq). lia.
Qed.
Lemma roots_apart rs : Forall (root_in E m fuel) rs -> Forall root_no_fields rs -> forall cur,
  separate (words pW (roots_words E cur rs)).
Proof.
  induction 1 as [|[[l a] ss] rs HR Hrs IH]; intros Hn cur; cbn [roots_words]; [constructor|].
  inversion Hn as [|? ? N1 N2]; subst. unfold root_no_fields in N1. cbn [snd] in N1. rewrite words_app. apply fop_app_intro.
  - destruct HR as (R1 & R2 & R3 & R4). apply (words_apart _ _ _ _ R4 N1); [apply push_end_VA|].
    pose proof (push_end_ge C cur l 1). lia.
  - apply IH. exact N2.
  - intros x y Hx Hy. apply in_map_iff in Hx. apply in_map_iff in Hy. destruct Hx as (q & <- & Hq). destruct Hy as (q' & <- & Hq'). cbn [fst snd].
    pose proof (root_where l a ss cur q HR N1 Hq). pose proof (roots_where rs Hrs N2 _ _ Hq'). left. lia.
Qed.
Section Point.
Variable k : kind.
Hypothesis HT : tracking k = true.
Variable M : mem.
Variable B : N.
(** Every word points into the output. *)
Lemma words_point : forall size al a ss, steps_ok E m fuel size al a ss ->
  forallb no_fields ss = true -> forall p cur, (VA | cur) -> images k E m M B p a cur ss ->
  forall q, In q (steps_words E p cur ss) -> exists t, read_word M (B + q) = Some (B + t) /\ t <= steps_end E cur ss.
Proof.
  apply (steps_ok_mut P E m fuel
    (fun size al a s _ => no_fields s = true -> forall p cur, (VA | cur) -> image k E m M B p a cur s ->
       forall q, In q (step_words E p cur s) -> exists t, read_word M (B + q) = Some (B + t) /\ t <= step_end E cur s)
    (fun size al a ss _ => forallb no_fields ss = true -> forall p cur, (VA | cur) -> images k E m M B p a cur ss ->
       forall q, In q (steps_words E p cur ss) -> exists t, read_word M (B + q) = Some (B + t) /\ t <= steps_end E cur ss)).
  - intros size al a off l tp n body Hoff Hpo Hpa Hsl Hb IH Hn p cur Hc HI q Hq. cbn [no_fields] in Hn.
    rewrite words_push in Hq. inversion HI as [p0 a0 cur0 off0 l0 tp0 n0 b0 HP HR| | | | |]; subst. rewrite end_push.
    pose proof (steps_end_ge _ _ _ _ (slice_end cur l n) Hb (slice_end_VA cur l n Hc)). pose proof (slice_before cur l n).
    destruct Hq as [<-|Hq].
    + unfold points in HP. rewrite HT in HP. destruct HP as [HP _]. exists (slice_pos cur l). split; [exact HP|lia].
    + inversion HR; subst. eapply IH; eauto. apply slice_end_VA. exact Hc.
  - intros size al a off l tp n Hoff Hpo Hpa Hsl Hn p cur Hc HI q [<-|[]].
    inversion HI as [|p0 a0 cur0 off0 l0 tp0 n0 HP HR| | | |]; subst. unfold points in HP. rewrite HT in HP. destruct HP as [HP _].
    exists (slice_pos cur l). split; [exact HP|]. cbn [step_end]. pose proof (slice_before cur l n). lia.
  - intros; contradiction.
  - intros; contradiction.
  - intros; contradiction.
  - intros; contradiction.
  - intros; contradiction.
  - intros; contradiction.
  - intros size al a s ss Hs IH1 Hd Hss IH2 Hn p cur Hc HI q Hq. cbn [forallb] in Hn. apply andb_prop in Hn. destruct Hn as [Hn1 Hn2].
    destruct (step_end_ge _ _ _ _ cur Hs Hc) as [G1 G2]. pose proof (steps_end_ge _ _ _ _ _ Hss G2) as G3.
    inversion HI as [|p0 a0 cur0 s0 ss0 I1 I2]; subst. cbn [steps_words] in Hq. apply in_app_or in Hq.
    unfold steps_end. cbn [fold_left]. fold (steps_end E (step_end E cur s) ss). destruct Hq as [Hq|Hq].
    + destruct (IH1 Hn1 p cur Hc I1 q Hq) as (t & T1 & T2). exists t. split; [exact T1|lia].
    + destruct (IH2 Hn2 p _ G2 I2 q Hq) as (t & T1 & T2). exists t. split; [exact T1|lia].
Qed.
Lemma roots_point rs : Forall (root_in E m fuel) rs -> Forall root_no_fields rs -> forall cur, regions k E m M B cur rs ->
  forall q, In q (roots_words E cur rs) -> exists t, read_word M (B + q) = Some (B + t) /\ t <= roots_end E cur rs.
Proof.
  induction 1 as [|[[l a] ss] rs HR Hrs IH]; intros Hn cur HG q Hq; cbn [roots_words roots_end regions] in *; [contradiction|].
  inversion Hn as [|? ? N1 N2]; subst. unfold root_no_fields in N1. cbn [snd] in N1. destruct HG as [G1 G2].
  destruct HR as (R1 & R2 & R3 & R4). apply in_app_or in Hq. destruct Hq as [Hq|Hq].
  - inversion G1; subst. destruct (words_point _ _ _ _ R4 N1 _ _ (push_end_VA cur l 1) ltac:(eassumption) q Hq) as (t & T1 & T2).
    pose proof (roots_end_ge rs Hrs (steps_end E (push_end cur l 1) ss)). exists t. split; [exact T1|lia].
  - exact (IH N2 _ G2 q Hq).
Qed.
End Point.

(** ** The image is found again *)
Section Moved.
Variable k : kind.
Hypothesis HT : tracking k = true.
Variables M M' : mem.
Variables B B' : N.
Variable len : N.
Hypothesis HB' : 0 < B'.
Hypothesis HBd : (MVA | B').
Hypothesis HBl : B' + len <= umod.

Definition kept (Z : N -> Prop) (hs : list N) : Prop :=
  (forall i, Z i -> ~ cov hs i -> M' (B' + i) = M (B + i)) /\
  (forall q x, In q hs -> read_word M (B + q) = Some x -> read_word M' (B' + q) = Some (B' + (x - B))).
Definition zone (p cur : N) (s : step) (i : N) : Prop := (p <= i /\ touched E s (i - p)) \/ (cur <= i /\ i < step_end E cur s).
Definition zones (p cur : N) (ss : list step) (i : N) : Prop :=
  (p <= i /\ exists s, In s ss /\ touched E s (i - p)) \/ (cur <= i /\ i < steps_end E cur ss).

Lemma moved_points p a off l n q hs Z : good_layout l -> points k m M B p a off l n q ->
  kept Z hs -> In (p + off) hs -> (l_align l | q) -> q + l_size l * n <= len ->
  points k m M' B' p a off l n q.
Proof.
  intros (G1 & G2 & G3 & G4) Hp [_ Hk] Hin Hq Hl. unfold points in *. rewrite HT in *. destruct Hp as [Hp _].
  split.
  - rewrite (Hk _ _ Hin Hp). f_equal. lia.
  - intros _. unfold valid_ref. ands; try lia. apply N.divide_add_r; [|exact Hq].
    etransitivity; [|exact HBd]. apply pow2_divide; auto. apply C.
Qed.

Definition step_moved (size al a : N) (s : step) : Prop :=
  no_fields s = true -> forall p cur, (VA | cur) -> p + size <= cur -> step_end E cur s <= len ->
  kept (zone p cur s) (step_words E p cur s) -> image k E m M B p a cur s -> image k E m M' B' p a cur s.
Definition steps_moved (size al a : N) (ss : list step) : Prop :=
  forallb no_fields ss = true -> forall p cur, (VA | cur) -> p + size <= cur -> steps_end E cur ss <= len ->
  kept (zones p cur ss) (steps_words E p cur ss) -> images k E m M B p a cur ss -> images k E m M' B' p a cur ss.

(** A whole region. *)
Lemma region_moved size al a ss : steps_ok E m fuel size al a ss -> steps_moved size al a ss -> forallb no_fields ss = true ->
  forall p cur, (VA | cur) -> p + size <= cur -> steps_end E cur ss <= len ->
  kept (fun i => (p <= i /\ i < p + size) \/ (cur <= i /\ i < steps_end E cur ss)) (steps_words E p cur ss) ->
  region k E m M B p a size cur ss -> region k E m M' B' p a size cur ss.
Proof.
  intros Hss Hm Hn p cur Hc Hpc Hl [K1 K2] Hr. inversion Hr as [p0 a0 size0 cur0 ss0 R1 R2]; subst. constructor.
  - intros i Hi Hno. rewrite K1; [apply R1; assumption|left; lia|].
    intros (q & Hq & Hx). destruct (words_where _ _ _ _ Hss Hn p cur q Hc Hq) as [(H1 & s & Hs & Ht)|[H1 H2]]; [|lia].
    apply (Hno s Hs). replace i with (q - p + (p + i - q)) by lia. apply Ht. lia.
  - apply Hm; auto. split; [|exact K2]. intros i [[H1 (s & H2 & H3)]|H1] Hno; apply K1; auto. left.
    pose proof (touched_inside E m fuel _ _ _ _ Hss s _ H2 H3). lia.
Qed.

Lemma moved_bytes_same Z hs p a n : kept Z hs -> (forall i, i < n -> Z (p + i)) -> (forall i, i < n -> ~ cov hs (p + i)) ->
  same_bytes m M B p a 0 n -> same_bytes m M' B' p a 0 n.
Proof. intros [K _] H1 H2 HS i Hi1 Hi2. rewrite K; [apply HS; lia|apply H1; lia|apply H2; lia]. Qed.

Lemma all_moved : forall size al a ss, steps_ok E m fuel size al a ss -> steps_moved size al a ss.
Proof.
  pose proof (pW_vals (c_machine C)) as HW.
  apply (steps_ok_mut P E m fuel (fun size al a s _ => step_moved size al a s)
             (fun size al a ss _ => steps_moved size al a ss)); unfold step_moved.
  - (* push and process *)
    intros size al a off l tp n body Hoff Hpo Hpa Hsl Hb IH Hn p cur Hc Hpc Hl HK HI. cbn [no_fields] in Hn.
    rewrite words_push in HK. inversion HI as [p0 a0 cur0 off0 l0 tp0 n0 b0 HP HR| | | | |]; subst.
    rewrite end_push in Hl.
    pose proof (slice_end_VA cur l n Hc) as Hc'. pose proof (steps_end_ge _ _ _ _ _ Hb Hc') as G.
    pose proof (slice_before cur l n) as SB. pose proof (slice_end_ge C cur l n) as SE.
    assert (Hqal : (l_align l | slice_pos cur l)) by (apply (slice_pos_align C); apply Hsl).
    constructor.
    + eapply moved_points; [apply Hsl|exact HP|exact HK|left; reflexivity|exact Hqal|lia].
    + apply (region_moved _ _ _ _ Hb IH Hn _ _ Hc' SB Hl); [|exact HR].
      destruct HK as [K1 K2]. split; [|intros q x Hq; apply K2; right; exact Hq].
      intros i Hi Hno.
      assert (Hge : cur <= i /\ i < steps_end E (slice_end cur l n) body).
      { destruct Hi as [Hi|Hi]; [|lia]. destruct (slice_inside cur l n) as [I1 I2]; [apply Hsl|lia|]. lia. }
      apply K1.
      * right. exact Hge.
      * intros (q & [<-|Hq] & Hx); [lia|]. apply Hno. exists q. auto.
  - (* push *)
    intros size al a off l tp n Hoff Hpo Hpa Hsl Hn p cur Hc Hpc Hl HK HI.
    inversion HI as [|p0 a0 cur0 off0 l0 tp0 n0 HP HR| | | |]; subst. cbn [step_end step_words] in *.
    pose proof (slice_before cur l n) as SB.
    assert (Hqal : (l_align l | slice_pos cur l)) by (apply (slice_pos_align C); apply Hsl).
    constructor.
    + eapply moved_points; [apply Hsl|exact HP|exact HK|left; reflexivity|exact Hqal|lia].
    + eapply moved_bytes_same; [exact HK| | |exact HR].
      * intros i Hi. destruct (slice_inside cur l n) as [I1 I2]; [apply Hsl|lia|]. right. cbn [step_end]. lia.
      * intros i Hi (q & [<-|[]] & Hx). destruct (slice_inside cur l n) as [I1 I2]; [apply Hsl|lia|]. lia.
  - (* raw *)
    intros size al a l tp n Hsl Hn p cur Hc Hpc Hl HK HI.
    inversion HI as [| |p0 a0 cur0 l0 tp0 n0 HR| | |]; subst. cbn [step_end step_words] in *. constructor.
    eapply moved_bytes_same; [exact HK| | |exact HR].
    + intros i Hi. destruct (slice_inside cur l n) as [I1 I2]; [apply Hsl|lia|]. right. cbn [step_end]. lia.
    + intros i Hi (q & [] & Hx).
  - (* overwrite *)
    intros size al a off l data Hgl Hsz Hoff Hoa Hal Hn p cur Hc Hpc Hl [K1 _] HI.
    inversion HI as [| | |p0 a0 cur0 off0 l0 d0 H1 H2| |]; subst. constructor.
    + intros HC i Hi. rewrite K1; [auto|left; unfold touched; cbn [touch]; lia|intros (q & [] & _)].
    + intros HC i Hi1 Hi2. rewrite K1; [apply H2; auto|left; unfold touched; cbn [touch]; lia|intros (q & [] & _)].
  - (* fields *)
    intros size al a off t v _ _ _ _ _ _ Hn. discriminate Hn.
  - (* storage *)
    intros size al a o Hov _ Hcl Hn p cur Hc Hpc Hl [K1 _] HI.
    inversion HI as [| | | | |p0 a0 cur0 o0 H1]; subst. constructor. intros l n data Ho i Hi.
    assert (HX : pow2 (l_align l) /\ l_size l <> 0 /\ op_next cur o = push_end cur l n).
    { assert (l_size l <> 0) by (intros X; rewrite X in Hi; lia).
      destruct o; cbn [op_data] in Ho; try discriminate; injection Ho as <- <- <-; cbn [op_next op_valid] in *.
      - rewrite (proj2 (N.eqb_neq _ _) H). ands; auto. apply Hov.
      - rewrite (proj2 (N.eqb_neq _ _) H). ands; auto. apply Hov.
      - ands; auto. apply (Build.u8_good C). }
    destruct HX as (X1 & X2 & X3).
    rewrite K1; [apply (H1 l n data Ho i Hi)| |intros (q & [] & _)].
    right. cbn [step_end]. rewrite X3. pose proof (push_start_ge C cur l X1). pose proof (push_end_ge C cur l n). lia.
  - (* panic *)
    intros size al a _ p cur _ _ _ _ HI. inversion HI.
  - intros size al a _ p cur _ _ _ _ _. constructor.
  - intros size al a s ss Hs IH1 Hd Hss IH2 Hn p cur Hc Hpc Hl [K1 K2] HI. cbn [forallb] in Hn. apply andb_prop in Hn. destruct Hn as [Hn1 Hn2].
    destruct (step_end_ge _ _ _ _ cur Hs Hc) as [G1 G2].
    unfold steps_end in Hl. cbn [fold_left] in Hl. fold (steps_end E (step_end E cur s) ss) in Hl.
    pose proof (steps_end_ge _ _ _ _ _ Hss G2) as G3.
    assert (Hin : forall i, touched E s i -> i < size).
    { intros i Hi. refine (touched_inside E m fuel size al a [s] _ s i (or_introl eq_refl) Hi). constructor; [exact Hs|intros s' j []|constructor]. }
    assert (Hin' : forall s' i, In s' ss -> touched E s' i -> i < size) by (intros s' i; apply (touched_inside E m fuel size al a ss Hss)).
    inversion HI as [|p0 a0 cur0 s0 ss0 I1 I2]; subst. cbn [steps_words] in K1, K2. constructor.
    + apply (IH1 Hn1 p cur Hc Hpc ltac:(lia)); [|exact I1]. split; [|intros q x Hq; apply K2; apply in_or_app; auto].
      intros i Hi Hno. apply K1.
      * unfold zones, steps_end. cbn [fold_left]. fold (steps_end E (step_end E cur s) ss).
        destruct Hi as [[H1 H2]|H1]; [left; split; [exact H1|exists s; split; [left; reflexivity|exact H2]]|right; lia].
      * intros (q & Hq & Hx). apply in_app_or in Hq. destruct Hq as [Hq|Hq]; [apply Hno; exists q; auto|].
        destruct (words_where _ _ _ _ Hss Hn2 p _ q G2 Hq) as [(J1 & s' & J2 & J3)|[J1 J2]].
        -- assert (T' : touched E s' (i - p)) by (replace (i - p) with (q - p + (i - q)) by lia; apply J3; lia).
           destruct Hi as [[H1 H2]|H1]; [exact (Hd s' _ J2 H2 T')|]. pose proof (Hin' _ _ J2 T'). lia.
        -- destruct Hi as [[H1 H2]|H1]; [|lia]. pose proof (Hin _ H2). lia.
    + apply (IH2 Hn2 p _ G2 ltac:(lia) Hl); [|exact I2]. split; [|intros q x Hq; apply K2; apply in_or_app; auto].
      intros i Hi Hno. apply K1.
      * unfold zones, steps_end. cbn [fold_left]. fold (steps_end E (step_end E cur s) ss).
        destruct Hi as [(H1 & s' & H2 & H3)|H1]; [left; split; [exact H1|exists s'; split; [right; exact H2|exact H3]]|right; lia].
      * intros (q & Hq & Hx). apply in_app_or in Hq. destruct Hq as [Hq|Hq]; [|apply Hno; exists q; auto].
        destruct (word_where _ _ _ _ Hs Hn1 p cur q Hc Hq) as [[J1 J2]|[J1 J2]].
        -- assert (T : touched E s (i - p)) by (replace (i - p) with (q - p + (i - q)) by lia; apply J2; lia).
           destruct Hi as [(H1 & s' & H2 & H3)|H1]; [exact (Hd s' _ H2 T H3)|]. pose proof (Hin _ T). lia.
        -- destruct Hi as [(H1 & s' & H2 & H3)|H1]; [|lia]. pose proof (Hin' _ _ H2 H3). lia.
Qed.

Lemma regions_moved rs : Forall (root_in E m fuel) rs -> Forall root_no_fields rs -> forall cur,
  roots_end E cur rs <= len -> kept (fun i => cur <= i /\ i < roots_end E cur rs) (roots_words E cur rs) ->
  regions k E m M B cur rs -> regions k E m M' B' cur rs.
Proof.
  induction 1 as [|[[l a] ss] rs HR Hrs IH]; intros Hn cur Hl [K1 K2] HG; cbn [roots_words roots_end regions] in *; [exact HG|].
  inversion Hn as [|? ? N1 N2]; subst. unfold root_no_fields in N1. cbn [snd] in N1. destruct HG as [G1 G2].
  pose proof HR as (R1 & R2 & R3 & R4).
  pose proof (steps_end_ge _ _ _ _ (push_end cur l 1) R4 (push_end_VA cur l 1)).
  pose proof (push_start_ge C cur l ltac:(apply R1)). pose proof (push_end_ge C cur l 1).
  pose proof (roots_end_ge rs Hrs (steps_end E (push_end cur l 1) ss)).
  split.
  - apply (region_moved _ _ _ _ R4 (all_moved _ _ _ _ R4) N1); [apply push_end_VA|lia|lia| |exact G1].
    split; [|intros q x Hq; apply K2; apply in_or_app; auto].
    intros i Hi Hno. apply K1; [lia|]. intros (q & Hq & Hx). apply in_app_or in Hq. destruct Hq as [Hq|Hq]; [apply Hno; exists q; auto|].
    pose proof (roots_where rs Hrs N2 _ _ Hq). lia.
  - apply IH; [exact N2|exact Hl| |exact G2]. split; [|intros q x Hq; apply K2; apply in_or_app; auto].
    intros i Hi Hno. apply K1; [lia|]. intros (q & Hq & Hx). apply in_app_or in Hq. destruct Hq as [Hq|Hq]; [|apply Hno; exists q; auto].
    pose proof (root_where l a ss cur q HR N1 Hq). lia.
Qed.

End Moved.
End Facts.
