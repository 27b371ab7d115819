(** * Bytes: a reference encoder for the calls of any implementations (used by PropBytes, C96). *)
From Coq Require Import Arith.
From Verif Require Import Base Types Storage Serializer Serialize Spec ArithFacts MemFacts SerFacts Client ClientSpec ClientFacts GenClientSpec Relocate Deleg DelegFacts.
From Coq Require Import ZifyBool ZifyNat ZifyN.
Local Open Scope N_scope.

(** ** Specification *)
(** What is to be at some positions of an output: bytes, or a word that is the address of position [t]. *)
Inductive content := Bytes (src : mem) | Pointer (t : N).
(** Position, length, content. *)
Definition piece : Type := N * N * content.

Section Encoder.
Context {P : Params}.
Variable k : kind.
Variable E : tenv.
Variable m : mem.

(** A pointer at position [p], where the serializer writes pointers at all. *)
Definition ptr_piece (p t : N) : list piece := if tracking k then [(p, pW, Pointer t)] else [].
(** A copy of [n] bytes at address [a]. *)
Definition copy_piece (p a n : N) : piece := (p, n, Bytes (mem_from m a)).
(** What a call puts into the output, [p] being the position of the value being processed and [cur] that where
    the next allocation may start.  (What a part handed on with [SField] puts there is stated by writing out its calls.) *)
Fixpoint step_pieces (p cur : N) (s : step) : list piece :=
  match s with
  | SPush off l tp n body =>
      let q := slice_pos cur l in
      ptr_piece (p + off) q ++ copy_piece q tp (l_size l * n) ::
      (fix go (cur : N) (ss : list step) : list piece :=
         match ss with
         | [] => []
         | s :: ss' => step_pieces q cur s ++ go (step_end E cur s) ss'
         end) (slice_end cur l n) body
  | SPushPlain off l tp n => let q := slice_pos cur l in ptr_piece (p + off) q ++ [copy_piece q tp (l_size l * n)]
  | SRaw l tp n => [copy_piece (slice_pos cur l) tp (l_size l * n)]
  | SOver off l data => match k with Complete => [(p + off, l_size l, Bytes data)] | _ => [] end
  | SStore o => match op_data o with Some (l, n, data) => [(push_start cur l, l_size l * n, Bytes data)] | None => [] end
  | SField _ _ _ | SPanic => []
  end.
Fixpoint steps_pieces (p cur : N) (ss : list step) : list piece :=
  match ss with
  | [] => []
  | s :: ss' => step_pieces p cur s ++ steps_pieces p (step_end E cur s) ss'
  end.
(** A value is copied and then its calls have their effect. *)
Definition root_pieces (cur : N) (r : layout * N * list step) : list piece :=
  let '(l, a, ss) := r in copy_piece (push_start cur l) a (l_size l) :: steps_pieces (push_start cur l) (push_end cur l 1) ss.
Fixpoint roots_pieces (cur : N) (rs : list (layout * N * list step)) : list piece :=
  match rs with
  | [] => []
  | (l, a, ss) :: rs' => root_pieces cur (l, a, ss) ++ roots_pieces (steps_end E (push_end cur l 1) ss) rs'
  end.

(** What is to be at position [i]: the byte, or a byte of the word at [q], which is the address of position [t].  The last
    piece counts. *)
Inductive want := Byte (c : option N) | OfWord (q t : N).
Fixpoint found (ws : list piece) (i : N) : option want :=
  match ws with
  | [] => None
  | (p, n, c) :: ws' =>
      match found ws' i with
      | Some x => Some x
      | None => if (p <=? i) && (i <? p + n) then Some (match c with Bytes src => Byte (src (i - p)) | Pointer t => OfWord p t end) else None
      end
  end.
(** Positions of a list of allocations that are there for alignment only: before a slice, or behind it. *)
Fixpoint padding (cur : N) (ls : list (layout * N)) (i : N) : Prop :=
  match ls with
  | [] => False
  | (l, n) :: ls' =>
      (cur <= i /\ i < push_start cur l) \/ (push_start cur l + l_size l * n <= i /\ i < push_end cur l n) \/
      padding (push_end cur l n) ls' i
  end.
(** What the values and their calls allocate. *)
Definition roots_slices (rs : list (layout * N * list step)) : list (layout * N) :=
  flat_map (fun '(l, _, ss) => (l, 1) :: flat_map (step_slices E) ss) rs.
(** The output in the memory [Mo] at base [B] is as encoded. *)
Definition encoded (Mo : mem) (B : N) (ws : list piece) : Prop :=
  forall i, match found ws i with
  | Some (Byte c) => Mo (B + i) = c
  | Some (OfWord q t) => read_word Mo (B + q) = Some (B + t)
  | None => True
  end.
End Encoder.

(** ** Proofs *)
Section Facts.
Context {P : Params}.
Variable k : kind.
Variable E : tenv.
Variable m : mem.
Variable Mo : mem.
Variable B : N.
Notation enc ws := (encoded Mo B ws).

Lemma found_app ws ws' i : found (ws ++ ws') i = match found ws' i with Some x => Some x | None => found ws i end.
Proof.
  induction ws as [|[[p n] c] ws IH]; [cbn; destruct (found ws' i); reflexivity|]. cbn [app found]. rewrite IH. destruct (found ws' i); reflexivity.
Qed.
Lemma enc_app ws ws' : enc ws -> enc ws' -> enc (ws ++ ws').
Proof. intros H1 H2 i. rewrite found_app. specialize (H1 i). specialize (H2 i). destruct (found ws' i); assumption. Qed.
Lemma enc_nil : enc []. Proof. intros i. exact Logic.I. Qed.
Lemma enc_cons p n c ws : enc ws ->
  (forall i, p <= i -> i < p + n -> found ws i = None -> match c with Bytes src => Mo (B + i) = src (i - p) | Pointer t => read_word Mo (B + p) = Some (B + t) end) ->
  enc ((p, n, c) :: ws).
Proof.
  intros H1 H2 i. cbn [found]. specialize (H1 i). specialize (H2 i). destruct (found ws i); [assumption|].
  destruct (N.leb_spec p i); cbn [andb]; [|exact Logic.I]. destruct (N.ltb_spec i (p + n)); [|exact Logic.I]. destruct c; apply H2; auto.
Qed.
Lemma enc_copy p a n ws : enc ws -> (forall i, i < n -> found ws (p + i) = None -> Mo (B + (p + i)) = m (a + i)) -> enc (copy_piece m p a n :: ws).
Proof.
  intros H1 H2. apply enc_cons; [exact H1|]. intros i Hi1 Hi2 Hn. unfold mem_from. specialize (H2 (i - p) ltac:(lia)).
  replace (p + (i - p)) with i in H2 by lia. exact (H2 Hn).
Qed.
Lemma enc_ptr p a off l n q : points k m Mo B p a off l n q -> enc (ptr_piece k (p + off) q).
Proof.
  unfold points, ptr_piece. destruct (tracking k); [|intros _; apply enc_nil]. intros [Hp _]. apply enc_cons; [apply enc_nil|]. intros; exact Hp.
Qed.
Lemma pieces_push p cur off l tp n body :
  step_pieces k E m p cur (SPush off l tp n body) =
  ptr_piece k (p + off) (slice_pos cur l) ++ copy_piece m (slice_pos cur l) tp (l_size l * n) :: steps_pieces k E m (slice_pos cur l) (slice_end cur l n) body.
Proof.
  cbn [step_pieces]. f_equal. f_equal. generalize (slice_end cur l n). generalize (slice_pos cur l) as q.
  induction body as [|s ss IH]; intros q c; [reflexivity|]. cbn [steps_pieces]. rewrite <- IH. reflexivity.
Qed.

(** A place a call is for that has nothing of the call is as in the input. *)
Lemma left_alone p a cur s j : image k E m Mo B p a cur s -> no_fields s = true -> touched E s j -> found (step_pieces k E m p cur s) (p + j) = None ->
  Mo (B + (p + j)) = m (a + j).
Proof.
  assert (HP : forall off l n q ws, points k m Mo B p a off l n q -> off <= j /\ j < off + pW -> found (ptr_piece k (p + off) q ++ ws) (p + j) = None ->
            Mo (B + (p + j)) = m (a + j)).
  { intros off l n q ws HP HT. rewrite found_app. destruct (found ws (p + j)); [discriminate|]. unfold ptr_piece, points in *.
    destruct (tracking k); [|intros _; apply HP; lia]. cbn [found].
    destruct (N.leb_spec (p + off) (p + j)); [|lia]. destruct (N.ltb_spec (p + j) (p + off + pW)); [discriminate|lia]. }
  intros HI HN HT. unfold touched in HT. destruct HI as [p a cur off l tp n body H1 H2|p a cur off l tp n H1 H2|p a cur l tp n H1|p a cur off l data H1 H2|p a cur off t v H1 H2 H3|p a cur o H1]; cbn [touch] in HT; try contradiction.
  - rewrite pieces_push. exact (HP _ _ _ _ _ H1 HT).
  - cbn [step_pieces]. exact (HP _ _ _ _ _ H1 HT).
  - cbn [step_pieces]. destruct k eqn:Ek; try (intros _; apply H2; [discriminate|lia|lia]). cbn [found].
    destruct (N.leb_spec (p + off) (p + j)); [|lia]. destruct (N.ltb_spec (p + j) (p + off + l_size l)); [discriminate|lia].
  - discriminate HN.
Qed.
Lemma left_alones p a : forall ss cur s j, images k E m Mo B p a cur ss -> forallb no_fields ss = true -> In s ss -> touched E s j ->
  found (steps_pieces k E m p cur ss) (p + j) = None -> Mo (B + (p + j)) = m (a + j).
Proof.
  induction ss as [|s0 ss IH]; intros cur s j HI HN Hin HT; [contradiction|]. cbn [steps_pieces]. rewrite found_app.
  inversion HI as [|? ? ? ? ? I1 I2]; subst. cbn [forallb] in HN. apply andb_prop in HN. destruct HN as [N1 N2].
  destruct (found (steps_pieces k E m p (step_end E cur s0) ss) (p + j)) eqn:Ef; [discriminate|]. intros Hn. destruct Hin as [->|Hin].
  - exact (left_alone p a cur s j I1 N1 HT Hn).
  - exact (IH _ s j I2 N2 Hin HT Ef).
Qed.
Lemma touched_dec ss j : (exists s, In s ss /\ touched E s j) \/ (forall s, In s ss -> ~ touched E s j).
Proof.
  induction ss as [|s ss [(s' & I1 & I2)|IH]]; [right; intros s []| left; exists s'; split; [right; exact I1|exact I2]|].
  assert (HD : touched E s j \/ ~ touched E s j).
  { unfold touched. destruct (touch E s) as [[off n]|]; [|right; intros []]. destruct (N.le_gt_cases off j); [|right; lia]. destruct (N.lt_ge_cases j (off + n)); [left; lia|right; lia]. }
  destruct HD as [HD|HD]; [left; exists s; split; [left; reflexivity|exact HD]|]. right. intros s' [<-|Hin]; [exact HD|exact (IH s' Hin)].
Qed.

Lemma region_encoded : forall ss,
  (forall p a size cur, region k E m Mo B p a size cur ss -> forallb no_fields ss = true ->
     enc (copy_piece m p a size :: steps_pieces k E m p cur ss)) /\
  (forall p a cur, images k E m Mo B p a cur ss -> forallb no_fields ss = true -> enc (steps_pieces k E m p cur ss)).
Proof.
  assert (Reg : forall ss, (forall p a cur, images k E m Mo B p a cur ss -> forallb no_fields ss = true -> enc (steps_pieces k E m p cur ss)) ->
    forall p a size cur, region k E m Mo B p a size cur ss -> forallb no_fields ss = true -> enc (copy_piece m p a size :: steps_pieces k E m p cur ss)).
  { intros ss HI p a size cur HR HN. inversion HR as [? ? ? ? ? R1 R2]; subst. apply enc_copy; [exact (HI p a cur R2 HN)|].
    intros i Hi Hf. destruct (touched_dec ss i) as [(s & Hs & HT)|Hno]; [|exact (R1 i Hi Hno)]. exact (left_alones p a ss cur s i R2 HN Hs HT Hf). }
  assert (Sts : forall ss p a cur, images k E m Mo B p a cur ss -> forallb no_fields ss = true -> enc (steps_pieces k E m p cur ss)).
  { apply (steps_induct (fun s => forall p a cur, image k E m Mo B p a cur s -> no_fields s = true -> enc (step_pieces k E m p cur s))
      (fun ss => forall p a cur, images k E m Mo B p a cur ss -> forallb no_fields ss = true -> enc (steps_pieces k E m p cur ss))).
    - intros off l tp n body IH p a cur HI HN. rewrite pieces_push. inversion HI as [? ? ? ? ? ? ? ? H1 H2| | | | |]; subst.
      apply enc_app; [exact (enc_ptr _ _ _ _ _ _ H1)|]. exact (Reg body IH _ _ _ _ H2 HN).
    - intros off l tp n p a cur HI HN. cbn [step_pieces]. inversion HI as [|? ? ? ? ? ? ? H1 H2| | | |]; subst. apply enc_app; [exact (enc_ptr _ _ _ _ _ _ H1)|].
      apply enc_copy; [apply enc_nil|]. intros i Hi _. apply H2; lia.
    - intros l tp n p a cur HI HN. cbn [step_pieces]. inversion HI as [| |? ? ? ? ? ? H1| | |]; subst. apply enc_copy; [apply enc_nil|]. intros i Hi _. apply H1; lia.
    - intros off l data p a cur HI HN. cbn [step_pieces]. inversion HI as [| | |? ? ? ? ? ? H1 H2| |]; subst. destruct k; try apply enc_nil. apply enc_cons; [apply enc_nil|].
      intros i Hi1 Hi2 _. rewrite <- H1 by (auto; lia). f_equal. lia.
    - discriminate.
    - intros o p a cur HI HN. cbn [step_pieces]. inversion HI as [| | | | |? ? ? ? H1]; subst. destruct (op_data o) as [[[l n] data]|] eqn:Eo; [|apply enc_nil].
      apply enc_cons; [apply enc_nil|]. intros i Hi1 Hi2 _. rewrite <- (H1 _ _ _ eq_refl) by lia. f_equal. lia.
    - intros p a cur HI HN. apply enc_nil.
    - intros p a cur HI HN. apply enc_nil.
    - intros s ss I1 I2 p a cur HI HN. cbn [steps_pieces].
      inversion HI as [|? ? ? ? ? J1 J2]; subst. cbn [forallb] in HN. apply andb_prop in HN. destruct HN as [N1 N2].
      apply enc_app; [exact (I1 p a cur J1 N1)|exact (I2 p a _ J2 N2)]. }
  intros ss. split; [exact (Reg ss (Sts ss))|exact (Sts ss)].
Qed.
Lemma root_encoded cur l a ss : region k E m Mo B (push_start cur l) a (l_size l) (push_end cur l 1) ss -> forallb no_fields ss = true ->
  enc (root_pieces k E m cur (l, a, ss)).
Proof. intros H1 H2. exact (proj1 (region_encoded ss) _ _ _ _ H1 H2). Qed.
Lemma regions_encoded : forall rs cur, regions k E m Mo B cur rs -> Forall root_no_fields rs -> enc (roots_pieces k E m cur rs).
Proof.
  induction rs as [|[[l a] ss] rs IH]; intros cur HR HN; [apply enc_nil|]. inversion HN as [|? ? N1 N2]; subst. destruct HR as [R1 R2].
  cbn [roots_pieces]. apply enc_app; [exact (root_encoded cur l a ss R1 N1)|exact (IH _ R2 N2)].
Qed.

(** ** Nothing but padding is left out *)
Lemma padding_app : forall ls ls' cur i, padding cur (ls ++ ls') i <-> padding cur ls i \/ padding (end_pos cur ls) ls' i.
Proof.
  induction ls as [|[l n] ls IH]; intros ls' cur i; cbn [app padding end_pos]; [tauto|]. rewrite IH. tauto.
Qed.
Lemma copied p a n i ws : found (copy_piece m p a n :: ws) i = None -> (i < p \/ p + n <= i) /\ found ws i = None.
Proof.
  unfold copy_piece; cbn [found]. destruct (found ws i); [discriminate|]. destruct (N.leb_spec p i); cbn [andb]; [|intros _; auto]. destruct (N.ltb_spec i (p + n)); [intros HH; discriminate HH|intros _; auto].
Qed.
Lemma slice_gap cur l n i tp ws : found (copy_piece m (slice_pos cur l) tp (l_size l * n) :: ws) i = None ->
  cur <= i -> i < slice_end cur l n -> padding cur (slice_list l n) i.
Proof.
  intros H. apply copied in H. destruct H as [H _]. unfold slice_pos, slice_end, slice_list in *. destruct (l_size l =? 0); [lia|]. cbn [padding]. lia.
Qed.
Lemma slice_list_end cur l n : end_pos cur (slice_list l n) = slice_end cur l n.
Proof. unfold slice_list, slice_end. destruct (l_size l =? 0); reflexivity. Qed.
Lemma ends : forall ss, existsb may_panic ss = false -> forallb no_fields ss = true -> forall cur, end_pos cur (flat_map (step_slices E) ss) = steps_end E cur ss.
Proof.
  apply (steps_induct (fun s => may_panic s = false -> no_fields s = true -> forall cur, end_pos cur (step_slices E s) = step_end E cur s)
    (fun ss => existsb may_panic ss = false -> forallb no_fields ss = true -> forall cur, end_pos cur (flat_map (step_slices E) ss) = steps_end E cur ss)); try reflexivity; try discriminate.
  - intros off l tp n body IH HP HN cur. cbn [step_slices step_end]. rewrite end_pos_app, slice_list_end. exact (IH HP HN _).
  - intros off l tp n _ _ cur. apply slice_list_end.
  - intros l tp n _ _ cur. apply slice_list_end.
  - intros s ss I1 I2 HP HN cur. cbn [forallb] in *. cbn [existsb] in HP. apply orb_false_elim in HP. apply andb_prop in HN. destruct HP as [P1 P2], HN as [N1 N2].
    cbn [flat_map]. rewrite end_pos_app, I1 by assumption. unfold steps_end. cbn [fold_left]. apply I2; assumption.
Qed.
Lemma steps_gap : forall ss, existsb may_panic ss = false -> forallb no_fields ss = true -> forall p cur i,
  cur <= i -> i < steps_end E cur ss -> found (steps_pieces k E m p cur ss) i = None -> padding cur (flat_map (step_slices E) ss) i.
Proof.
  apply (steps_induct (fun s => may_panic s = false -> no_fields s = true -> forall p cur i,
      cur <= i -> i < step_end E cur s -> found (step_pieces k E m p cur s) i = None -> padding cur (step_slices E s) i)
    (fun ss => existsb may_panic ss = false -> forallb no_fields ss = true -> forall p cur i,
      cur <= i -> i < steps_end E cur ss -> found (steps_pieces k E m p cur ss) i = None -> padding cur (flat_map (step_slices E) ss) i)); try discriminate.
  - intros off l tp n body IH HP HN p cur i H1 H2. rewrite pieces_push, found_app. cbn [step_slices].
    match goal with |- context [match found ?w i with _ => _ end] => destruct (found w i) eqn:Ef; [discriminate|] end. intros _.
    apply padding_app. destruct (N.lt_ge_cases i (slice_end cur l n)) as [Hi|Hi]; [left; exact (slice_gap _ _ _ _ _ _ Ef H1 Hi)|right].
    rewrite slice_list_end. apply copied in Ef. apply (IH HP HN (slice_pos cur l)); [exact Hi|exact H2|apply Ef].
  - intros off l tp n _ _ p cur i H1 H2. cbn [step_pieces step_slices step_end] in *. rewrite found_app.
    match goal with |- context [match found ?w i with _ => _ end] => destruct (found w i) eqn:Ef; [discriminate|] end. intros _. exact (slice_gap _ _ _ _ _ _ Ef H1 H2).
  - intros l tp n _ _ p cur i H1 H2 Ef. exact (slice_gap _ _ _ _ _ _ Ef H1 H2).
  - intros off l data _ _ p cur i H1 H2. cbn [step_end] in H2. lia.
  - intros _ _ p cur i H1 H2. cbn [steps_end fold_left] in H2. unfold steps_end in H2. cbn [fold_left] in H2. lia.
  - intros s ss I1 I2 HP HN p cur i H1 H2. cbn [forallb] in *. cbn [existsb] in HP. apply orb_false_elim in HP. apply andb_prop in HN. destruct HP as [P1 P2], HN as [N1 N2].
    cbn [steps_pieces flat_map]. rewrite found_app. destruct (found (steps_pieces k E m p (step_end E cur s) ss) i) eqn:Ef; [discriminate|]. intros Hs.
    apply padding_app. destruct (N.lt_ge_cases i (step_end E cur s)) as [Hi|Hi]; [left; eapply I1; eassumption|right].
    pose proof (ends [s] ltac:(cbn [existsb]; rewrite P1; reflexivity) ltac:(cbn [forallb]; rewrite N1; reflexivity) cur) as He. cbn [flat_map] in He. rewrite app_nil_r in He. rewrite He.
    eapply I2; eassumption.
Qed.
Lemma roots_gap : forall rs, Forall (fun r => existsb may_panic (snd r) = false) rs -> Forall root_no_fields rs -> forall cur i,
  cur <= i -> i < roots_end E cur rs -> found (roots_pieces k E m cur rs) i = None -> padding cur (roots_slices E rs) i.
Proof.
  induction rs as [|[[l a] ss] rs IH]; intros HP HN cur i H1 H2 Hf; [cbn [roots_end] in H2; lia|]. inversion HP as [|? ? P1 P2]; subst. inversion HN as [|? ? N1 N2]; subst.
  unfold root_no_fields in N1. cbn [snd] in P1, N1. cbn [roots_pieces roots_end roots_slices flat_map] in *. rewrite found_app in Hf.
  destruct (found (roots_pieces k E m (steps_end E (push_end cur l 1) ss) rs) i) eqn:Ef; [discriminate|].
  apply padding_app. cbn [padding end_pos]. rewrite ends by assumption.
  destruct (N.lt_ge_cases i (steps_end E (push_end cur l 1) ss)) as [Hi|Hi]; [left|right; apply IH; assumption].
  unfold root_pieces in Hf. apply copied in Hf. destruct Hf as [Hf1 Hf2].
  destruct (N.lt_ge_cases i (push_end cur l 1)) as [Hj|Hj]; [lia|]. right. right. eapply steps_gap; eassumption.
Qed.
End Facts.
