(** * Build: which values a type has, and putting one in memory.

    [has_ty E t v]: [v] is a value of the Rust type [t].  [put]: a program that stores a value
    somewhere in memory with all it owns, as safe Rust code building it would, every Vec and String
    with [spare] elements of unused capacity.  [put_repr]: what it stores is indeed that
    value in the sense of Spec.v. *)
From Verif Require Import Base Types Storage Spec ArithFacts StorageFacts MemFacts TypeFacts SerFacts SerValue.
From Coq Require Import Arith ZifyBool ZifyNat ZifyN.
Local Open Scope N_scope.

Section Build.
Context {P : Params}.

(** ** Values of a type *)

(** Some bit pattern of the discriminant stands for variant [k]. *)
Definition has_variant (d : discr) (k : nat) : Prop :=
  match d with
  | DSingle k' => k = k'
  | DTag _ sz vals => exists n, n < 256 ^ sz /\ index_of n vals = Some k
  | DNiche _ sz df ns => k = df \/ exists n, n < 256 ^ sz /\ assoc n ns = Some k
  end.

Inductive has_ty (E : tenv) : ty -> val -> Prop :=
| HT_prim l ok n : ok n = true -> n < 256 ^ l_size l -> has_ty E (TPrim l ok) (VPrim n)
| HT_box t v : has_ty E t v -> has_ty E (TBox t) (VBox v)
| HT_vec vl t vs : N.of_nat (length vs) < umod -> all_ty E t vs -> has_ty E (TVec vl t) (VVec vs)
| HT_string vl bs : Forall (fun b => b < 256) bs -> has_ty E (TString vl) (VString bs)
| HT_array t n vs : n = N.of_nat (length vs) -> all_ty E t vs -> has_ty E (TArray t n) (VArray vs)
| HT_struct l fs vs : fields_ty E fs vs -> has_ty E (TStruct l fs) (VStruct vs)
| HT_enum l d vss k fs vs :
    nth_error vss k = Some fs -> has_variant d k -> fields_ty E fs vs -> has_ty E (TEnum l d vss) (VEnum k vs)
| HT_named id d v : E id = Some d -> has_ty E d v -> has_ty E (TNamed id) v
with all_ty (E : tenv) : ty -> list val -> Prop :=
| AT_nil t : all_ty E t []
| AT_cons t v vs : has_ty E t v -> all_ty E t vs -> all_ty E t (v :: vs)
with fields_ty (E : tenv) : list (N * ty) -> list val -> Prop :=
| FT_nil : fields_ty E [] []
| FT_cons off t fs v vs : has_ty E t v -> fields_ty E fs vs -> fields_ty E ((off, t) :: fs) (v :: vs).

Scheme has_ty_m := Minimality for has_ty Sort Prop
with all_ty_m := Minimality for all_ty Sort Prop
with fields_ty_m := Minimality for fields_ty Sort Prop.
Combined Scheme has_ty_mut from has_ty_m, all_ty_m, fields_ty_m.

(** ** Storing a value *)

Definition put_word (m : mem) (a x : N) : mem := blit m a pW (word_src x).
Definition put_int (m : mem) (a sz x : N) : mem := blit m a sz (bytes_src (to_bytes (N.to_nat sz) x)).
Definition put_bytes (m : mem) (a : N) (bs : list N) : mem := blit m a (N.of_nat (length bs)) (bytes_src bs).

Definition is_some_nat (o : option nat) (k : nat) : bool :=
  match o with Some j => Nat.eqb j k | None => false end.
(** The integer to store for variant [k], if any: where, how many bytes, which. *)
Definition discr_code (d : discr) (k : nat) : option (N * N * N) :=
  match d with
  | DSingle _ => None
  | DTag off sz vals =>
      match find (fun n => is_some_nat (index_of n vals) k && (n <? 256 ^ sz)) vals with
      | Some n => Some (off, sz, n) | None => None end
  | DNiche off sz df ns =>
      if Nat.eqb k df then None
      else match find (fun n => is_some_nat (assoc n ns) k && (n <? 256 ^ sz)) (map fst ns) with
           | Some n => Some (off, sz, n) | None => None end
  end.
Definition put_discr (m : mem) (a : N) (d : discr) (k : nat) : mem :=
  match discr_code d k with Some (off, sz, n) => put_int m (a + off) sz n | None => m end.

(** Memory, and where the next allocation may go. *)
Definition heap := (mem * N)%type.

(** An allocation of [c] values of layout [l]; dangling if it takes no space. *)
Definition grab (l : layout) (c nx : N) : N * N :=
  if l_size l * c =? 0 then (l_align l, nx) else (push_start nx l, push_end nx l c).

Section Put.
Variable E : tenv.
Variable spare : N.

Fixpoint put (v : val) (t : ty) (a : N) (h : heap) {struct v} : heap :=
  let elems := fix go (vs : list val) (t : ty) (a : N) (h : heap) {struct vs} :=
    match vs with
    | [] => h
    | v :: vs' => go vs' t (a + size_of E t) (put v t a h)
    end in
  let fields := fix go (vs : list val) (fs : list (N * ty)) (a : N) (h : heap) {struct vs} :=
    match vs, fs with
    | v :: vs', (off, t) :: fs' => go vs' fs' a (put v t (a + off) h)
    | _, _ => h
    end in
  let '(m, nx) := h in
  match resolve E t, v with
  | TPrim l _, VPrim n => (put_int m a (l_size l) n, nx)
  | TBox t', VBox v' =>
      let '(p, nx') := grab (layout_of E t') 1 nx in
      put v' t' p (put_word m a p, nx')
  | TVec vl t', VVec vs =>
      let n := N.of_nat (length vs) in
      let c := if size_of E t' =? 0 then 0 else n + spare in
      let '(p, nx') := grab (layout_of E t') c nx in
      elems vs t' p (put_word (put_word (put_word m (a + cap_off vl) c) (a + ptr_off vl) p) (a + len_off vl) n, nx')
  | TString vl, VString bs =>
      let n := N.of_nat (length bs) in
      let c := n + spare in
      let '(p, nx') := grab u8_layout c nx in
      (put_bytes (put_word (put_word (put_word m (a + cap_off vl) c) (a + ptr_off vl) p) (a + len_off vl) n) p bs, nx')
  | TArray t' _, VArray vs => elems vs t' a h
  | TStruct _ fs, VStruct vs => fields vs fs a h
  | TEnum _ d vss, VEnum k vs =>
      match nth_error vss k with
      | Some fs => fields vs fs a (put_discr m a d k, nx)
      | None => h
      end
  | _, _ => h
  end.

Fixpoint put_elems (vs : list val) (t : ty) (a : N) (h : heap) {struct vs} : heap :=
  match vs with
  | [] => h
  | v :: vs' => put_elems vs' t (a + size_of E t) (put v t a h)
  end.
Fixpoint put_fields (vs : list val) (fs : list (N * ty)) (a : N) (h : heap) {struct vs} : heap :=
  match vs, fs with
  | v :: vs', (off, t) :: fs' => put_fields vs' fs' a (put v t (a + off) h)
  | _, _ => h
  end.

Lemma put_eq v t a h : put v t a h =
  let '(m, nx) := h in
  match resolve E t, v with
  | TPrim l _, VPrim n => (put_int m a (l_size l) n, nx)
  | TBox t', VBox v' =>
      let '(p, nx') := grab (layout_of E t') 1 nx in
      put v' t' p (put_word m a p, nx')
  | TVec vl t', VVec vs =>
      let n := N.of_nat (length vs) in
      let c := if size_of E t' =? 0 then 0 else n + spare in
      let '(p, nx') := grab (layout_of E t') c nx in
      put_elems vs t' p (put_word (put_word (put_word m (a + cap_off vl) c) (a + ptr_off vl) p) (a + len_off vl) n, nx')
  | TString vl, VString bs =>
      let n := N.of_nat (length bs) in
      let c := n + spare in
      let '(p, nx') := grab u8_layout c nx in
      (put_bytes (put_word (put_word (put_word m (a + cap_off vl) c) (a + ptr_off vl) p) (a + len_off vl) n) p bs, nx')
  | TArray t' _, VArray vs => put_elems vs t' a h
  | TStruct _ fs, VStruct vs => put_fields vs fs a h
  | TEnum _ d vss, VEnum k vs =>
      match nth_error vss k with
      | Some fs => put_fields vs fs a (put_discr m a d k, nx)
      | None => h
      end
  | _, _ => h
  end.
Proof.
  assert (HE : forall vs t a h, (fix go (vs : list val) (t : ty) (a : N) (h : heap) {struct vs} :=
    match vs with [] => h | v :: vs' => go vs' t (a + size_of E t) (put v t a h) end) vs t a h = put_elems vs t a h)
    by (induction vs as [|x vs IH]; intros; cbn; auto).
  assert (HF : forall vs fs a h, (fix go (vs : list val) (fs : list (N * ty)) (a : N) (h : heap) {struct vs} :=
    match vs, fs with v :: vs', (off, t) :: fs' => go vs' fs' a (put v t (a + off) h) | _, _ => h end) vs fs a h
    = put_fields vs fs a h)
    by (induction vs as [|x vs IH]; intros [|[off u] fs] b g; cbn; auto).
  destruct h as [m nx], v; cbn [put]; destruct (resolve E t); try reflexivity;
    repeat match goal with |- context [let '(_, _) := ?g in _] => destruct g end;
    rewrite ?HE, ?HF; try reflexivity.
Qed.


(** ** What is stored is the value *)
Hypothesis C : cfg_ok.
Hypothesis HE : wf_env E.

(** The pointers [put] makes. *)
Definition made : header := fun q l c p n =>
  0 < l_size l -> (c = n \/ c = n + spare) /\ (c = 0 -> p = l_align l) /\ (0 < n -> q + pW <= p).

(** From heap [h] to [h'] only [R] and newly allocated memory changed, and what is
    there ensures [Q]. *)
Definition stored (R : N -> Prop) (h h' : heap) (Q : mem -> Prop) : Prop :=
  snd h <= snd h' /\
  (forall x, ~ R x -> ~ (snd h <= x /\ x < snd h') -> fst h' x = fst h x) /\
  (forall m, (forall x, R x \/ (snd h <= x /\ x < snd h') -> m x = fst h' x) -> Q m).

Definition span (a n : N) : N -> Prop := fun x => a <= x /\ x < a + n.
Definition in_fields (fs : list (N * ty)) (a : N) : N -> Prop :=
  fun x => exists o t, In (o, t) fs /\ span (a + o) (size_of E t) x.

Lemma span_dec a n x : span a n x \/ ~ span a n x.
Proof. unfold span. lia. Qed.

Lemma grab_spec l c nx p nx' : good_layout l -> grab l c nx = (p, nx') -> 0 < nx -> nx' <= imax + 1 ->
  nx <= nx' /\ p <> 0 /\ (l_align l | p) /\ p + l_size l * c <= umod /\
  (l_size l * c = 0 -> p = l_align l /\ nx' = nx) /\
  (0 < l_size l * c -> nx <= p /\ p + l_size l * c <= nx').
Proof.
  intros (G1 & G2 & G3 & G4) Hg H0 Hm. unfold grab in Hg. pose proof (pow2_pos _ G1).
  pose proof (imax_lt (proj1 C)). pose proof (c_SA_lt_imax C). pose proof (c_MVA_SA C).
  destruct (N.eqb_spec (l_size l * c) 0) as [Hz|Hz]; inversion Hg; subst.
  - rewrite Hz. ands; auto; try lia. apply N.divide_refl.
  - pose proof (push_start_ge C nx l G1). pose proof (push_end_ge C nx l c).
    pose proof (push_start_align C nx l G1) as Hd. ands; auto; lia.
Qed.

(** Reading back what was written, wherever memory agrees with it. *)
Lemma got_int m m' a sz x : x < 256 ^ sz -> (forall i, i < sz -> m (a + i) = put_int m' a sz x (a + i)) ->
  read_int m a sz = Some x.
Proof.
  intros Hx Hm. unfold read_int.
  rewrite <- (to_bytes_length (N.to_nat sz) x) at 1. rewrite (read_bytes_list (to_bytes (N.to_nat sz) x)).
  - cbn. rewrite of_to_bytes; [reflexivity|]. rewrite N2Nat.id. exact Hx.
  - rewrite to_bytes_length, N2Nat.id. intros i Hi. rewrite (Hm i Hi). unfold put_int. rewrite blit_in by lia.
    unfold bytes_src. f_equal. lia.
Qed.
Lemma got_word m m' a x : x < umod -> (forall i, i < pW -> m (a + i) = put_word m' a x (a + i)) ->
  read_word m a = Some x.
Proof.
  intros Hx Hm. apply read_word_src; auto. intros i Hi. rewrite (Hm i Hi). unfold put_word.
  rewrite blit_in by lia. f_equal. lia.
Qed.

Lemma put_word_out m a x i : ~ span a pW i -> put_word m a x i = m i.
Proof. intros H. unfold put_word. apply blit_out. unfold span in H. lia. Qed.
Lemma put_word_in m a x i : span a pW i -> put_word m a x i = word_src x (i - a).
Proof. intros H. unfold put_word. apply blit_in; unfold span in H; lia. Qed.

(** The three words of a Vec. *)
Definition put_vec (m : mem) (a : N) (vl : vlay) (c p n : N) : mem :=
  put_word (put_word (put_word m (a + cap_off vl) c) (a + ptr_off vl) p) (a + len_off vl) n.
Lemma put_vec_out m a vl c p n x : ~ span a (3 * pW) x -> put_vec m a vl c p n x = m x.
Proof.
  intros H. pose proof (pW_vals (proj1 C)). destruct (vl_offs vl) as (A & B & D & _); [lia|].
  unfold put_vec. rewrite !put_word_out; auto; unfold span in *; lia.
Qed.
Lemma put_vec_read m m' a vl c p n : c < umod -> p < umod -> n < umod ->
  (forall x, span a (3 * pW) x -> m' x = put_vec m a vl c p n x) ->
  read_word m' (a + cap_off vl) = Some c /\ read_word m' (a + ptr_off vl) = Some p /\ read_word m' (a + len_off vl) = Some n.
Proof.
  intros Hc Hp Hn Hm. pose proof (pW_vals (proj1 C)). destruct (vl_offs vl) as (A & B & D & F1 & F2 & F3 & _); [lia|].
  unfold disjoint in *. unfold put_vec in Hm.
  ands; (apply read_word_src; [assumption|]); intros i Hi; rewrite Hm by (unfold span; lia).
  - rewrite put_word_out, put_word_out, put_word_in by (unfold span; lia). f_equal. lia.
  - rewrite put_word_out, put_word_in by (unfold span; lia). f_equal. lia.
  - rewrite put_word_in by (unfold span; lia). f_equal. lia.
Qed.

(** The discriminant. *)
Lemma find_code {A} (f : A -> option nat) (sz : N) (num : A -> N) l k x :
  In x l -> f x = Some k -> num x < 256 ^ sz ->
  exists y, find (fun n => is_some_nat (f n) k && (num n <? 256 ^ sz)) l = Some y /\ f y = Some k /\ num y < 256 ^ sz.
Proof.
  intros Hin Hf Hn. destruct (find (fun n => is_some_nat (f n) k && (num n <? 256 ^ sz)) l) as [y|] eqn:Hfd.
  - exists y. apply find_some in Hfd. destruct Hfd as [_ Hb]. apply andb_true_iff in Hb. destruct Hb as [B1 B2].
    split; [reflexivity|]. split; [|lia]. unfold is_some_nat in B1. destruct (f y) as [j|]; [|discriminate].
    apply Nat.eqb_eq in B1. subst. reflexivity.
  - pose proof (find_none _ _ Hfd x Hin) as Hx. cbn in Hx. rewrite Hf in Hx. cbn in Hx.
    rewrite Nat.eqb_refl in Hx. cbn in Hx. apply N.ltb_ge in Hx. lia.
Qed.


(** What [put_discr] does: it changes bytes of the discriminant only, and these say [k]. *)
Lemma put_discr_spec l vss d k a m : discr_ok E l vss d -> has_variant d k ->
  match d with
  | DSingle _ => put_discr m a d k = m /\ forall m', read_discr m' a d = Some k
  | DTag off sz _ =>
      (forall x, ~ span (a + off) sz x -> put_discr m a d k x = m x) /\
      (forall m', (forall x, span (a + off) sz x -> m' x = put_discr m a d k x) -> read_discr m' a d = Some k)
  | DNiche off sz df _ =>
      (k = df -> put_discr m a d k = m) /\
      (k <> df ->
        (forall x, ~ span (a + off) sz x -> put_discr m a d k x = m x) /\
        (forall m', (forall x, span (a + off) sz x -> m' x = put_discr m a d k x) -> read_discr m' a d = Some k))
  end.
Proof.
  intros Hd Hk. destruct d as [k'|off sz vals|off sz df ns]; cbn [has_variant] in Hk; unfold put_discr; cbn [discr_code].
  - subst. split; [reflexivity|]. intros m'. reflexivity.
  - destruct Hk as (n & Hn & Hi).
    destruct (find_code (fun n => index_of n vals) sz (fun n => n) vals k n (index_of_in _ _ _ Hi) Hi Hn) as (y & -> & Hy1 & Hy2).
    split.
    + intros x Hx. unfold put_int. apply blit_out. unfold span in Hx. lia.
    + intros m' Hm. cbn [read_discr]. rewrite (got_int m' m (a + off) sz y Hy2); [exact Hy1|].
      intros i Hi'. apply Hm. unfold span. lia.
  - split.
    + intros ->. rewrite Nat.eqb_refl. reflexivity.
    + intros Hne. rewrite (proj2 (Nat.eqb_neq k df) Hne). destruct Hk as [Hk|(n & Hn & Hi)]; [contradiction|].
      assert (Hin : In n (map fst ns)).
      { apply assoc_in in Hi. apply (in_map fst) in Hi. exact Hi. }
      destruct (find_code (fun n => assoc n ns) sz (fun n => n) (map fst ns) k n Hin Hi Hn) as (y & -> & Hy1 & Hy2).
      split.
      * intros x Hx. unfold put_int. apply blit_out. unfold span in Hx. lia.
      * intros m' Hm. cbn [read_discr]. rewrite (got_int m' m (a + off) sz y Hy2); [rewrite Hy1; reflexivity|].
        intros i Hi'. apply Hm. unfold span. lia.
Qed.

Definition below (a n nx : N) : Prop := n = 0 \/ a + n <= nx.

Lemma put_resolved v t u a h : resolve E t = u -> resolve E u = u -> put v t a h = put v u a h.
Proof. intros H1 H2. rewrite (put_eq v t), (put_eq v u), H1, H2. reflexivity. Qed.

Lemma grab_mono l c nx p nx' : good_layout l -> grab l c nx = (p, nx') -> nx <= nx'.
Proof.
  intros (G1 & _) Hg. unfold grab in Hg. destruct (l_size l * c =? 0); inversion Hg; subst; [lia|].
  pose proof (push_start_ge C nx l G1). pose proof (push_end_ge C nx l c). lia.
Qed.

Lemma u8_good : good_layout u8_layout.
Proof.
  pose proof (c_MVA_pos C). pose proof (c_SA_lt_imax C). unfold good_layout. cbn [u8_layout l_size l_align].
  ands; try lia; [exists 0; reflexivity|apply N.divide_1_l].
Qed.

Lemma put_nx_mono :
  (forall t v, has_ty E t v -> wf_ty E t -> forall a h, snd h <= snd (put v t a h)) /\
  (forall t vs, all_ty E t vs -> wf_ty E t -> forall a h, snd h <= snd (put_elems vs t a h)) /\
  (forall fs vs, fields_ty E fs vs -> (forall o t, In (o, t) fs -> wf_ty E t) -> forall a h, snd h <= snd (put_fields vs fs a h)).
Proof.
  apply (has_ty_mut E
    (fun t v => wf_ty E t -> forall a h, snd h <= snd (put v t a h))
    (fun t vs => wf_ty E t -> forall a h, snd h <= snd (put_elems vs t a h))
    (fun fs vs => (forall o t, In (o, t) fs -> wf_ty E t) -> forall a h, snd h <= snd (put_fields vs fs a h))).
  - intros l ok n _ _ _ a [m nx]. rewrite put_eq. cbn. lia.
  - intros t v _ IH Hw a [m nx]. inversion Hw; subst. rewrite put_eq. cbn [resolve].
    destruct (grab (layout_of E t) 1 nx) as [p nx'] eqn:Hg.
    pose proof (grab_mono _ _ _ _ _ (wf_good C E HE t ltac:(assumption)) Hg).
    etransitivity; [|apply IH; assumption]. exact H.
  - intros vl t vs _ _ IH Hw a [m nx]. inversion Hw; subst. rewrite put_eq. cbn [resolve].
    destruct (grab (layout_of E t) (if size_of E t =? 0 then 0 else N.of_nat (length vs) + spare) nx) as [p nx'] eqn:Hg.
    pose proof (grab_mono _ _ _ _ _ (wf_good C E HE t ltac:(assumption)) Hg).
    etransitivity; [|apply IH; assumption]. exact H.
  - intros vl bs _ Hw a [m nx]. rewrite put_eq. cbn [resolve].
    destruct (grab u8_layout (N.of_nat (length bs) + spare) nx) as [p nx'] eqn:Hg.
    pose proof (grab_mono _ _ _ _ _ u8_good Hg). exact H.
  - intros t n vs _ _ IH Hw a [m nx]. inversion Hw; subst. rewrite put_eq. cbn [resolve]. apply IH; assumption.
  - intros l fs vs _ IH Hw a [m nx]. inversion Hw; subst. rewrite put_eq. cbn [resolve]. apply IH; assumption.
  - intros l d vss k fs vs Hk _ _ IH Hw a [m nx]. inversion Hw; subst. rewrite put_eq. cbn [resolve]. rewrite Hk.
    etransitivity; [|apply IH; eauto]. cbn. lia.
  - intros id d v Hd _ IH Hw a h. destruct (HE id d Hd) as [Hwd Hs].
    rewrite (put_resolved v (TNamed id) d a h).
    + apply IH. exact Hwd.
    + cbn. rewrite Hd. reflexivity.
    + destruct d; try contradiction; reflexivity.
  - intros t Hw a h. cbn. lia.
  - intros t v vs _ IH1 _ IH2 Hw a h. cbn [put_elems]. etransitivity; [apply (IH1 Hw a h)|apply IH2; exact Hw].
  - intros Hw a h. cbn. lia.
  - intros off t fs v vs _ IH1 _ IH2 Hw a h. cbn [put_fields].
    etransitivity; [apply (IH1 (Hw off t (or_introl eq_refl)) (a + off) h)|].
    apply IH2. intros o u Hin. apply (Hw o u). right. exact Hin.
Qed.

Lemma fields_fit l fs : fields_ok E l fs -> forall o t, In (o, t) fs -> o + size_of E t <= l_size l.
Proof.
  intros H. induction H as [|off t fs F1 F2 F3 F4 F5 IH]; intros o u Hin; [destruct Hin|].
  destruct Hin as [Hin|Hin]; [inversion Hin; subst; exact F1|apply IH; exact Hin].
Qed.

Theorem put_repr :
  (forall t v, has_ty E t v -> wf_ty E t -> forall a h, 0 < snd h -> below a (size_of E t) (snd h) ->
     snd (put v t a h) <= imax + 1 ->
     stored (span a (size_of E t)) h (put v t a h) (fun m => repr E made m t a v)) /\
  (forall t vs, all_ty E t vs -> wf_ty E t -> forall a h, 0 < snd h ->
     below a (size_of E t * N.of_nat (length vs)) (snd h) ->
     snd (put_elems vs t a h) <= imax + 1 ->
     stored (span a (size_of E t * N.of_nat (length vs))) h (put_elems vs t a h) (fun m => repr_elems E made m t a vs)) /\
  (forall fs vs, fields_ty E fs vs -> forall l, fields_ok E l fs -> (forall o t, In (o, t) fs -> wf_ty E t) ->
     forall a h, 0 < snd h -> (forall o t, In (o, t) fs -> below (a + o) (size_of E t) (snd h)) ->
     snd (put_fields vs fs a h) <= imax + 1 ->
     stored (in_fields fs a) h (put_fields vs fs a h) (fun m => repr_fields E made m fs a vs)).
Proof.
  apply (has_ty_mut E
    (fun t v => wf_ty E t -> forall a h, 0 < snd h -> below a (size_of E t) (snd h) ->
     snd (put v t a h) <= imax + 1 ->
     stored (span a (size_of E t)) h (put v t a h) (fun m => repr E made m t a v))
    (fun t vs => wf_ty E t -> forall a h, 0 < snd h ->
     below a (size_of E t * N.of_nat (length vs)) (snd h) ->
     snd (put_elems vs t a h) <= imax + 1 ->
     stored (span a (size_of E t * N.of_nat (length vs))) h (put_elems vs t a h) (fun m => repr_elems E made m t a vs))
    (fun fs vs => forall l, fields_ok E l fs -> (forall o t, In (o, t) fs -> wf_ty E t) ->
     forall a h, 0 < snd h -> (forall o t, In (o, t) fs -> below (a + o) (size_of E t) (snd h)) ->
     snd (put_fields vs fs a h) <= imax + 1 ->
     stored (in_fields fs a) h (put_fields vs fs a h) (fun m => repr_fields E made m fs a vs))).
  - (* prim *)
    intros l ok n Hok Hn Hw a [m nx] H0 Hb Hm. rewrite put_eq in *. cbn [resolve fst snd] in *.
    change (size_of E (TPrim l ok)) with (l_size l) in *. split; [cbn; lia|]. split.
    + intros x Hx _. cbn [fst]. unfold put_int. apply blit_out. unfold span in Hx. lia.
    + intros m' Hm'. constructor; [|exact Hok]. apply (got_int m' m a _ n Hn).
      intros i Hi. apply Hm'. left. unfold span. lia.
  - (* box *)
    intros t v Hv IH Hw a [m nx] H0 Hb Hm. inversion Hw as [|t0 Hwt HW| | | | | |]; subst.
    rewrite put_eq in *. cbn [resolve] in *. pose proof (pW_vals (proj1 C)).
    change (size_of E (TBox t)) with pW in *. cbn [fst snd] in *.
    destruct (grab (layout_of E t) 1 nx) as [p nx'] eqn:Hg.
    pose proof (proj1 put_nx_mono t v Hv Hwt p (put_word m a p, nx')) as Hmono. cbn [snd] in Hmono.
    pose proof (wf_good C E HE t Hwt) as HG.
    destruct (grab_spec _ _ _ _ _ HG Hg H0 ltac:(lia)) as (G1 & G2 & G3 & G4 & G5 & G6).
    rewrite N.mul_1_r in *. fold (size_of E t) in *.
    specialize (IH Hwt p (put_word m a p, nx')). cbn [fst snd] in IH.
    destruct IH as (I1 & I2 & I3); [lia|unfold below; lia|lia|]. unfold below in Hb.
    split; [cbn [snd]; lia|]. split.
    + intros x Hx Hx2. cbn [fst snd] in *. rewrite I2.
      * apply put_word_out. exact Hx.
      * unfold span. lia.
      * lia.
    + intros m' Hm'. cbn [fst snd] in *.
      assert (Hp : read_word m' a = Some p).
      { apply (got_word m' m); [pose proof (imax_lt (proj1 C)); destruct (N.eq_dec (size_of E t) 0); [|lia]|].
        - destruct HG as (_ & _ & _ & HG). pose proof (c_SA_lt_imax C). pose proof (c_MVA_SA C). lia.
        - intros i Hi. rewrite Hm' by (left; unfold span; lia). rewrite I2 by (unfold span; lia). reflexivity. }
      apply R_box with p; auto.
      * split; [exact G2|]. split; [exact G3|]. fold (size_of E t). lia.
      * intros Hs. fold (size_of E t) in Hs. ands; [left; reflexivity|lia|lia].
      * apply I3. intros x [Hx|Hx]; apply Hm'; right; unfold span in *; lia.
  - (* vec *)
    intros vl t vs Hlen Hvs IH Hw a [m nx] H0 Hb Hm. inversion Hw as [| |vl0 t0 Hwt HW| | | | |]; subst.
    rewrite put_eq in *. cbn [resolve] in *. pose proof (pW_vals (proj1 C)).
    change (size_of E (TVec vl t)) with (3 * pW) in *. cbn zeta in *.
    set (n := N.of_nat (length vs)) in *. set (c := if size_of E t =? 0 then 0 else n + spare) in *.
    destruct (grab (layout_of E t) c nx) as [p nx'] eqn:Hg.
    fold (put_vec m a vl c p n) in *.
    pose proof (proj1 (proj2 put_nx_mono) t vs Hvs Hwt p (put_vec m a vl c p n, nx')) as Hmono. cbn [snd] in Hmono.
    pose proof (wf_good C E HE t Hwt) as HG. cbn [fst snd] in H0, Hb.
    destruct (grab_spec _ _ _ _ _ HG Hg H0 ltac:(lia)) as (G1 & G2 & G3 & G4 & G5 & G6).
    fold (size_of E t) in *. pose proof (imax_lt (proj1 C)) as Himax.
    assert (Hsc : size_of E t * c <= imax) by nia.
    assert (Hc : c <= imax) by (unfold c in *; destruct (N.eqb_spec (size_of E t) 0); [lia|nia]).
    assert (Hcn : 0 < size_of E t -> c = n + spare).
    { intros Hs. unfold c. rewrite (proj2 (N.eqb_neq _ _)) by lia. reflexivity. }
    assert (Hnc : size_of E t * n <= size_of E t * c) by (destruct (N.eq_dec (size_of E t) 0); [lia|rewrite Hcn by lia; nia]).
    assert (Hpu : p < umod).
    { destruct (N.eq_dec (size_of E t * c) 0) as [Hz|Hz]; [|lia].
      destruct (G5 Hz) as [-> _]. destruct HG as (_ & _ & _ & HG). pose proof (c_SA_lt_imax C). pose proof (c_MVA_SA C). lia. }
    specialize (IH Hwt p (put_vec m a vl c p n, nx')). cbn [fst snd] in IH. unfold below in Hb.
    destruct IH as (I1 & I2 & I3); [lia|unfold below; fold n; lia|exact Hm|]. fold n in I2, I3.
    split; [cbn [snd] in *; lia|]. split.
    + intros x Hx Hx2. cbn [fst snd] in *. rewrite I2.
      * apply put_vec_out. exact Hx.
      * unfold span. lia.
      * lia.
    + intros m' Hm'. cbn [fst snd] in *.
      destruct (put_vec_read m m' a vl c p n) as (R1 & R2 & R3); [lia|exact Hpu|exact Hlen| |].
      { intros x Hx. rewrite Hm' by (left; exact Hx). apply I2; unfold span in *; lia. }
      apply R_vec with c p; auto.
      * split; [|split; [exact Hc|split]].
        -- split; [exact G2|]. split; [exact G3|]. fold (size_of E t). fold n. lia.
        -- fold n. fold (size_of E t). destruct (N.eqb_spec (size_of E t) 0); [lia|]. rewrite Hcn by lia. lia.
        -- exact Hsc.
      * intros Hs. fold n. fold (size_of E t) in Hs. pose proof (Hcn Hs) as Hcn'.
        destruct (vl_offs vl) as (_ & V2 & _); [lia|].
        ands; [right; exact Hcn'|intros Hz; apply G5; rewrite Hz; lia|].
        intros Hn0. assert (0 < size_of E t * c) by (rewrite Hcn'; nia). lia.
      * apply I3. intros x [Hx|Hx]; apply Hm'; right; unfold span in *; [|lia].
        assert (0 < size_of E t * c) by lia. lia.
  - (* string *)
    intros vl bs Hbs Hw a [m nx] H0 Hb Hm. inversion Hw as [| | |vl0 HW| | | |]; subst.
    rewrite put_eq in *. cbn [resolve] in *. pose proof (pW_vals (proj1 C)).
    change (size_of E (TString vl)) with (3 * pW) in *. cbn zeta in *.
    set (n := N.of_nat (length bs)) in *. set (c := n + spare) in *.
    destruct (grab u8_layout c nx) as [p nx'] eqn:Hg.
    fold (put_vec m a vl c p n) in *. cbn [fst snd] in H0, Hb, Hm.
    destruct (grab_spec _ _ _ _ _ u8_good Hg H0 Hm) as (G1 & G2 & G3 & G4 & G5 & G6).
    change (l_size u8_layout) with 1 in *. change (l_align u8_layout) with 1 in *. rewrite N.mul_1_l in *.
    pose proof (imax_lt (proj1 C)) as Himax. unfold below in Hb.
    assert (Hc : c <= imax) by lia.
    assert (Hnc : n <= c) by (unfold c; lia).
    split; [cbn [snd] in *; lia|]. split.
    + intros x Hx Hx2. cbn [fst snd] in *. unfold put_bytes. fold n. rewrite blit_out by lia. apply put_vec_out. exact Hx.
    + intros m' Hm'. cbn [fst snd] in *.
      destruct (put_vec_read m m' a vl c p n) as (R1 & R2 & R3); [lia|lia|lia| |].
      { intros x Hx. rewrite Hm' by (left; exact Hx). unfold put_bytes. fold n. apply blit_out. unfold span in Hx. lia. }
      apply R_string with c p; auto.
      * split; [|split; [exact Hc|split]].
        -- split; [exact G2|]. split; [exact G3|]. fold n. change (l_size u8_layout) with 1. lia.
        -- fold n. change (l_size u8_layout) with 1. cbn. lia.
        -- change (l_size u8_layout) with 1. lia.
      * intros _. fold n. destruct (vl_offs vl) as (_ & V2 & _); [lia|].
        ands; [right; reflexivity|intros Hz; apply G5; exact Hz|lia].
      * apply read_bytes_list. fold n. intros i Hi. rewrite Hm' by (right; lia). unfold put_bytes. fold n.
        rewrite blit_in by lia. unfold bytes_src. f_equal. lia.
  - (* array *)
    intros t n vs Hn Hvs IH Hw a [m nx] H0 Hb Hm. inversion Hw; subst.
    rewrite put_eq in *. cbn [resolve] in *.
    assert (Hsz : size_of E (TArray t (N.of_nat (length vs))) = size_of E t * N.of_nat (length vs)) by reflexivity.
    rewrite Hsz in *. destruct (IH ltac:(assumption) a (m, nx) H0 Hb Hm) as (I1 & I2 & I3).
    split; [exact I1|]. split; [exact I2|]. intros m' Hm'. constructor; [reflexivity|]. apply I3, Hm'.
  - (* struct *)
    intros l fs vs Hvs IH Hw a [m nx] H0 Hb Hm. inversion Hw as [| | | | |l0 fs0 Hl Hfs Hwf| |]; subst.
    rewrite put_eq in *. cbn [resolve] in *. change (size_of E (TStruct l fs)) with (l_size l) in *. unfold below in Hb.
    cbn [fst snd] in H0, Hb.
    assert (Hin : forall o t, In (o, t) fs -> o + size_of E t <= l_size l) by (intros o t; apply (fields_fit l fs); exact Hfs).
    destruct (IH l Hfs Hwf a (m, nx) H0) as (I1 & I2 & I3); [|exact Hm|].
    { intros o t Ht. apply Hin in Ht. unfold below. cbn [snd]. lia. }
    split; [exact I1|]. split.
    + intros x Hx. apply I2. intros (o & t & Ht & Hs). apply Hin in Ht. unfold span in *. lia.
    + intros m' Hm'. constructor. apply I3. intros x [(o & t & Ht & Hs)|Hx]; apply Hm'; [left|right; exact Hx].
      apply Hin in Ht. unfold span in *. lia.
  - (* enum *)
    intros l d vss k fs vs Hk Hd Hvs IH Hw a [m nx] H0 Hb Hm. inversion Hw as [| | | | | |l0 d0 vss0 Hl Hdo Hfs Hwf|]; subst.
    rewrite put_eq in *. cbn [resolve] in *. change (size_of E (TEnum l d vss)) with (l_size l) in *. unfold below in Hb.
    rewrite Hk in *. cbn [fst snd] in H0, Hb. specialize (Hfs k fs Hk).
    assert (Hin : forall o t, In (o, t) fs -> o + size_of E t <= l_size l) by (intros o t; apply (fields_fit l fs); exact Hfs).
    destruct (IH l Hfs (fun o t => Hwf k fs o t Hk) a (put_discr m a d k, nx) H0) as (I1 & I2 & I3); [|exact Hm|].
    { intros o t Ht. apply Hin in Ht. unfold below. cbn [snd]. lia. }
    pose proof (put_discr_spec l vss d k a m Hdo Hd) as HD.
    set (h' := put_fields vs fs a (put_discr m a d k, nx)) in *. cbn [fst snd] in I1, I2, I3.
    assert (Hpd : forall x, ~ span a (l_size l) x -> put_discr m a d k x = m x).
    { intros x Hx. destruct d as [k'|off sz vals|off sz df ns].
      - destruct HD as [-> _]. reflexivity.
      - apply HD. inversion Hdo; subst. unfold span in *. lia.
      - destruct HD as [D1 D2]. destruct (Nat.eq_dec k df) as [->|Hne]; [rewrite D1 by reflexivity; reflexivity|].
        apply D2; [exact Hne|]. inversion Hdo; subst. unfold span in *. lia. }
    split; [exact I1|]. split.
    + intros x Hx Hx2. cbn [fst snd] in *. rewrite I2; [apply Hpd; exact Hx| |exact Hx2].
      intros (o & t & Ht & Hs). apply Hin in Ht. unfold span in *. lia.
    + intros m' Hm'. cbn [fst snd] in *.
      assert (Hf : repr_fields E made m' fs a vs).
      { apply I3. intros x [(o & t & Ht & Hs)|Hx]; apply Hm'; [left|right; exact Hx].
        apply Hin in Ht. unfold span in *. lia. }
      apply R_enum with fs; auto.
      (* bytes apart from the fields are as written before *)
      assert (Hkeep : forall off sz, off + sz <= l_size l -> apart E off sz fs ->
                forall x, span (a + off) sz x -> m' x = put_discr m a d k x).
      { intros off sz Hos Hap x Hx. rewrite Hm' by (left; unfold span in *; lia). apply I2.
        - intros (o & t & Ht & Hs). pose proof (Hap o t Ht) as Hdj. unfold disjoint, span in *. lia.
        - unfold span in Hx. lia. }
      destruct d as [k'|off sz vals|off sz df ns].
      * apply HD.
      * inversion Hdo as [|off0 sz0 vals0 O1 O2|]; subst. apply HD. apply Hkeep; [exact O1|]. apply (O2 k fs Hk).
      * inversion Hdo as [| |off0 sz0 df0 ns0 fs1 o t off' O1 O2 O3 O4 O5 O6 O7]; subst. destruct HD as [_ D2].
        destruct (Nat.eq_dec k df) as [->|Hne].
        -- rewrite Hk in O4. injection O4 as ->. destruct (fields_in E made m' fs1 a vs o t Hf O5) as [v Hv].
           destruct (niche_read E made m' t off' sz _ O7 _ _ Hv) as (n & Hn & HQ).
           cbn [read_discr]. rewrite N.add_assoc, Hn, (assoc_none n ns HQ). reflexivity.
        -- apply D2; [exact Hne|]. apply Hkeep; [exact O1|]. apply (O3 k fs Hk Hne).
  - (* named *)
    intros id d v Hd Hv IH Hw a h H0 Hb Hm. destruct (HE id d Hd) as [Hwd Hs].
    assert (Hr : put v (TNamed id) a h = put v d a h).
    { apply put_resolved; [cbn; rewrite Hd; reflexivity|destruct d; try contradiction; reflexivity]. }
    assert (Hsz : size_of E (TNamed id) = size_of E d).
    { unfold size_of. rewrite (named_size E HE id d Hd). reflexivity. }
    rewrite Hr, Hsz in *. destruct (IH Hwd a h H0 Hb Hm) as (I1 & I2 & I3).
    split; [exact I1|]. split; [exact I2|]. intros m' Hm'. apply R_named with d; auto.
  - intros t Hw a h H0 Hb Hm. split; [cbn; lia|]. split; [reflexivity|]. intros m' _. constructor.
  - (* elements *)
    intros t v vs Hv IH1 Hvs IH2 Hw a h H0 Hb Hm. cbn [put_elems] in *.
    assert (Hlen : size_of E t * N.of_nat (length (v :: vs)) = size_of E t + size_of E t * N.of_nat (length vs))
      by (cbn [length]; lia). rewrite Hlen in *. unfold below in *.
    set (h1 := put v t a h) in *.
    pose proof (proj1 put_nx_mono t v Hv Hw a h) as M1. fold h1 in M1.
    pose proof (proj1 (proj2 put_nx_mono) t vs Hvs Hw (a + size_of E t) h1) as M2.
    destruct (IH1 Hw a h H0) as (I1 & I2 & I3); [lia|fold h1; lia|]. fold h1 in I1, I2, I3.
    destruct (IH2 Hw (a + size_of E t) h1) as (J1 & J2 & J3); [lia|lia|exact Hm|].
    split; [lia|]. split.
    + intros x Hx Hx2. rewrite J2, I2; auto; unfold span in *; lia.
    + intros m' Hm'. constructor.
      * apply I3. intros x Hx. rewrite Hm' by (unfold span in *; lia). apply J2; unfold span in *; lia.
      * apply J3. intros x Hx. apply Hm'. unfold span in *. lia.
  - intros l _ _ a h H0 _ Hm. split; [cbn; lia|]. split; [reflexivity|]. intros m' _. constructor.
  - (* fields *)
    intros off t fs v vs Hv IH1 Hvs IH2 l Hfs Hw a h H0 Hb Hm. cbn [put_fields] in *.
    inversion Hfs as [|off0 t0 fs0 F1 F2 F3 F4 F5]; subst.
    assert (Hwt : wf_ty E t) by (apply (Hw off t); left; reflexivity).
    assert (Hw' : forall o u, In (o, u) fs -> wf_ty E u) by (intros o u Hin; apply (Hw o u); right; exact Hin).
    set (h1 := put v t (a + off) h) in *.
    pose proof (proj1 put_nx_mono t v Hv Hwt (a + off) h) as M1. fold h1 in M1.
    pose proof (proj2 (proj2 put_nx_mono) fs vs Hvs Hw' a h1) as M2.
    pose proof (Hb off t (or_introl eq_refl)) as Hb0. unfold below in *.
    destruct (IH1 Hwt (a + off) h H0 Hb0) as (I1 & I2 & I3); [fold h1; lia|]. fold h1 in I1, I2, I3.
    destruct (IH2 l F5 Hw' a h1) as (J1 & J2 & J3); [lia| |exact Hm|].
    { intros o u Hin. specialize (Hb o u (or_intror Hin)). unfold below. lia. }
    assert (Hbf : forall x, in_fields fs a x -> x < snd h).
    { intros x (o & u & Hin & Hs). specialize (Hb o u (or_intror Hin)). unfold span in Hs. lia. }
    assert (Hdis : forall x, span (a + off) (size_of E t) x -> ~ in_fields fs a x).
    { intros x Hx (o & u & Hin & Hs). pose proof (F4 o u Hin) as Hd. unfold disjoint, span in *. lia. }
    split; [lia|]. split.
    + intros x Hx Hx2. rewrite J2, I2; auto; try lia.
      * intros Hs. apply Hx. exists off, t. split; [left; reflexivity|exact Hs].
      * intros (o & u & Hin & Hs). apply Hx. exists o, u. split; [right; exact Hin|exact Hs].
    + intros m' Hm'. constructor.
      * apply I3. intros x Hx. rewrite Hm'.
        -- apply J2.
           ++ destruct Hx as [Hx|Hx]; [apply Hdis; exact Hx|]. intros Hf. apply Hbf in Hf. lia.
           ++ destruct Hx as [Hx|Hx]; [|lia]. unfold span in Hx. lia.
        -- destruct Hx as [Hx|Hx]; [left|right; lia]. exists off, t. split; [left; reflexivity|exact Hx].
      * apply J3. intros x [(o & u & Hin & Hs)|Hx]; apply Hm'; [left|right; lia].
        exists o, u. split; [right; exact Hin|exact Hs].
Qed.

End Put.

(** ** How much memory it takes, without spare capacity *)
Lemma zst_owns_nothing (E : tenv) : cfg_ok -> wf_env E ->
  (forall t v, has_ty E t v -> wf_ty E t -> size_of E t = 0 -> owned E t v = []) /\
  (forall t vs, all_ty E t vs -> wf_ty E t -> size_of E t = 0 -> flat_map (owned E t) vs = []) /\
  (forall fs vs, fields_ty E fs vs -> (forall o t, In (o, t) fs -> wf_ty E t /\ size_of E t = 0) -> owned_fields E vs fs = []).
Proof.
  intros C HE. pose proof (pW_vals (proj1 C)) as HW.
  apply (has_ty_mut E
    (fun t v => wf_ty E t -> size_of E t = 0 -> owned E t v = [])
    (fun t vs => wf_ty E t -> size_of E t = 0 -> flat_map (owned E t) vs = [])
    (fun fs vs => (forall o t, In (o, t) fs -> wf_ty E t /\ size_of E t = 0) -> owned_fields E vs fs = [])).
  - reflexivity.
  - intros t v _ _ _ Hz. change (size_of E (TBox t)) with pW in Hz. lia.
  - intros vl t vs _ _ _ _ Hz. change (size_of E (TVec vl t)) with (3 * pW) in Hz. lia.
  - intros vl bs _ _ Hz. change (size_of E (TString vl)) with (3 * pW) in Hz. lia.
  - intros t n vs Hn Hvs IH Hw Hz. inversion Hw; subst.
    assert (Hsz : size_of E t * N.of_nat (length vs) = 0) by exact Hz.
    cbn [owned resolve]. destruct vs as [|v vs]; [reflexivity|]. apply IH; [assumption|]. cbn [length] in Hsz. nia.
  - intros l fs vs _ IH Hw Hz. inversion Hw; subst. rewrite owned_struct. apply IH.
    intros o t Hin. split; [eauto|]. pose proof (fields_fit E l fs ltac:(assumption) o t Hin).
    change (size_of E (TStruct l fs)) with (l_size l) in Hz. lia.
  - intros l d vss k fs vs Hk _ _ IH Hw Hz. inversion Hw as [| | | | | |l0 d0 vss0 Hl Hdo Hfs Hwf|]; subst.
    rewrite (owned_enum _ _ _ _ _ _ _ Hk). apply IH.
    intros o t Hin. split; [eauto|]. pose proof (fields_fit E l fs (Hfs k fs Hk) o t Hin).
    change (size_of E (TEnum l d vss)) with (l_size l) in Hz. lia.
  - intros id d v Hd _ IH Hw Hz. destruct (HE id d Hd) as [Hwd Hs]. rewrite (owned_named E HE id d v Hd). apply IH; [exact Hwd|].
    unfold size_of in *. rewrite <- (named_size E HE id d Hd). exact Hz.
  - reflexivity.
  - intros t v vs _ IH1 _ IH2 Hw Hz. cbn [flat_map]. rewrite IH1, IH2 by assumption. reflexivity.
  - reflexivity.
  - intros off t fs v vs _ IH1 _ IH2 Hw. cbn [owned_fields]. destruct (Hw off t (or_introl eq_refl)) as [A B].
    rewrite IH1, IH2; auto. intros o u Hin. apply (Hw o u). right. exact Hin.
Qed.

Lemma put_end_pos (E : tenv) : cfg_ok -> wf_env E ->
  (forall t v, has_ty E t v -> wf_ty E t -> forall a h, snd (put E 0 v t a h) = end_pos (snd h) (owned E t v)) /\
  (forall t vs, all_ty E t vs -> wf_ty E t -> forall a h,
     snd (put_elems E 0 vs t a h) = end_pos (snd h) (flat_map (owned E t) vs)) /\
  (forall fs vs, fields_ty E fs vs -> (forall o t, In (o, t) fs -> wf_ty E t) -> forall a h,
     snd (put_fields E 0 vs fs a h) = end_pos (snd h) (owned_fields E vs fs)).
Proof.
  intros C HE.
  apply (has_ty_mut E
    (fun t v => wf_ty E t -> forall a h, snd (put E 0 v t a h) = end_pos (snd h) (owned E t v))
    (fun t vs => wf_ty E t -> forall a h, snd (put_elems E 0 vs t a h) = end_pos (snd h) (flat_map (owned E t) vs))
    (fun fs vs => (forall o t, In (o, t) fs -> wf_ty E t) -> forall a h,
       snd (put_fields E 0 vs fs a h) = end_pos (snd h) (owned_fields E vs fs))).
  - intros l ok n _ _ _ a [m nx]. rewrite put_eq. reflexivity.
  - intros t v Hv IH Hw a [m nx]. inversion Hw; subst. rewrite put_eq. cbn [resolve owned snd].
    unfold grab. rewrite N.mul_1_r. fold (size_of E t).
    destruct (N.eqb_spec (size_of E t) 0) as [Hz|Hz]; rewrite IH by assumption; cbn [snd end_pos].
    + rewrite (proj1 (zst_owns_nothing E C HE) t v) by auto. reflexivity.
    + reflexivity.
  - intros vl t vs _ Hvs IH Hw a [m nx]. inversion Hw; subst. rewrite put_eq. cbn [resolve owned snd]. cbn zeta.
    unfold grab. fold (size_of E t). rewrite N.add_0_r.
    destruct (N.eqb_spec (size_of E t) 0) as [Hz|Hz]; cbn [orb].
    + rewrite Hz. cbn. rewrite IH by assumption. cbn [snd].
      rewrite (proj1 (proj2 (zst_owns_nothing E C HE)) t vs) by auto. reflexivity.
    + destruct (N.eqb_spec (N.of_nat (length vs)) 0) as [Hn|Hn].
      * rewrite Hn, N.mul_0_r. cbn [N.eqb]. rewrite IH by assumption. cbn [snd].
        destruct vs; [reflexivity|cbn in Hn; lia].
      * rewrite (proj2 (N.eqb_neq _ _)) by nia. rewrite IH by assumption. reflexivity.
  - intros vl bs _ Hw a [m nx]. rewrite put_eq. cbn [resolve owned snd]. cbn zeta.
    unfold grab. change (l_size u8_layout) with 1. rewrite N.add_0_r, N.mul_1_l.
    destruct (N.eqb_spec (N.of_nat (length bs)) 0); reflexivity.
  - intros t n vs _ _ IH Hw a [m nx]. inversion Hw; subst. rewrite put_eq. cbn [resolve owned]. apply IH; assumption.
  - intros l fs vs _ IH Hw a [m nx]. inversion Hw; subst. rewrite put_eq. cbn [resolve]. rewrite owned_struct. apply IH; assumption.
  - intros l d vss k fs vs Hk _ _ IH Hw a [m nx]. inversion Hw; subst. rewrite put_eq. cbn [resolve].
    rewrite (owned_enum _ _ _ _ _ _ _ Hk), Hk. rewrite IH by eauto. reflexivity.
  - intros id d v Hd _ IH Hw a h. destruct (HE id d Hd) as [Hwd Hs].
    rewrite (put_resolved E 0 v (TNamed id) d a h).
    + rewrite IH by exact Hwd. rewrite (owned_named E HE id d v Hd). reflexivity.
    + cbn. rewrite Hd. reflexivity.
    + destruct d; try contradiction; reflexivity.
  - intros t Hw a h. reflexivity.
  - intros t v vs _ IH1 _ IH2 Hw a h. cbn [put_elems flat_map]. rewrite IH2, IH1 by exact Hw.
    rewrite end_pos_app. reflexivity.
  - intros Hw a h. reflexivity.
  - intros off t fs v vs _ IH1 _ IH2 Hw a h. cbn [put_fields owned_fields].
    rewrite IH2, IH1; [rewrite end_pos_app; reflexivity|apply (Hw off t); left; reflexivity|].
    intros o u Hin. apply (Hw o u). right. exact Hin.
Qed.

End Build.
