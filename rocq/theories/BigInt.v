(** * BigInt: model of ser_raw/src/serialize_impls/bigint.rs, and property C33. *)
From Verif Require Import Base Types Storage Serializer Serialize Spec ArithFacts MemFacts TypeFacts.
Local Open Scope N_scope.

Section BigInt.
Context {P : Params}.

(** ** num_bigint *)

(** num_bigint::Sign, a fieldless enum of one byte with values 0, 1, 2 in some order
    (num_bigint: Minus, NoSign, Plus; the encoding is the compiler's choice). *)
Inductive sign := Plus | Minus | NoSign.

(** The compiler's choices for BigInt { sign: Sign, data: BigUint }: the words of the
    Vec inside BigUint, which field comes first, the byte of each sign. *)
Record bigint_layout := mkBL {
  bl_vec : vlay;
  bl_sign_first : bool;
  bl_byte : sign -> N
}.

(** rustc: sign is one byte, data three words aligned to a word; whichever order, the
    size is four words. *)
Definition data_off (bl : bigint_layout) : N := if bl_sign_first bl then pW else 0.
Definition sign_off (bl : bigint_layout) : N := if bl_sign_first bl then 0 else pW * 3.

(** A BigUint as its three words, a BigInt as its bytes ([None]: padding). *)
Definition word_cells (x : N) : list cell := map Some (to_bytes (N.to_nat pW) x).
Definition padding : list cell := repeat None (N.to_nat pW - 1).
Definition bigint_cells (bl : bigint_layout) (s : sign) (words : list N) : list cell :=
  if bl_sign_first bl
  then Some (bl_byte bl s) :: padding ++ flat_map word_cells words
  else flat_map word_cells words ++ Some (bl_byte bl s) :: padding.

(** num_bigint: BigUint::default() = BigUint { data: Vec::new() } *)
Definition biguint_default (bl : bigint_layout) : list N := words_of (bl_vec bl) 0 pW 0.

(** num_bigint: BigInt::from_biguint: NoSign when asked for or when the digits are empty;
    NoSign also clears the digits. *)
Definition set_word (ix : N) (x : N) (ws : list N) : list N :=
  firstn (N.to_nat ix) ws ++ x :: skipn (S (N.to_nat ix)) ws.
Definition from_biguint (bl : bigint_layout) (s : sign) (ws : list N) : sign * list N :=
  match s with
  | NoSign => (NoSign, set_word (len_ix (bl_vec bl)) 0 ws)
  | _ => if word_at (len_ix (bl_vec bl)) ws =? 0 then (NoSign, ws) else (s, ws)
  end.

(** ** bigint.rs *)

(** bigint.rs:99-113  create_bigint_bytes: writes 1 at word OFFSETS_VEC.len() / PTR_SIZE of
    an empty BigUint.  A write past the three words is UB. *)
Definition create_bigint_bytes {S} (bl : bigint_layout) (s : sign) : M S (list cell) :=
  vo <- const_or (vec_offsets (bl_vec bl) pW) ;;
  let len_offset := vo_len vo / pW in
  if len_offset <? 3 then
    let biguint := set_word len_offset 1 (biguint_default bl) in
    let '(s', ws) := from_biguint bl s biguint in
    ret (bigint_cells bl s' ws)
  else ub.

(** MaybeUninit::assume_init of byte [i]: UB on padding; the index is bounds checked. *)
Definition assume_init {S} (l : list cell) (i : N) : M S N :=
  match nth_error l (N.to_nat i) with
  | Some (Some b) => ret b
  | Some None => ub
  | None => panics PAssert
  end.

(** bigint.rs:66-96  bigint_data_offset *)
Definition bigint_data_offset {S} (bl : bigint_layout) : M S N :=
  positive <- create_bigint_bytes bl Plus ;;
  negative <- create_bigint_bytes bl Minus ;;
  p0 <- assume_init positive 0 ;;
  n0 <- assume_init negative 0 ;;
  let start_match := p0 =? n0 in
  p3 <- assume_init positive (pW * 3) ;;
  n3 <- assume_init negative (pW * 3) ;;
  let end_match := p3 =? n3 in
  if start_match then
    (assert_or PAssert (negb end_match) ;;; ret 0)
  else
    (assert_or PAssert (negb start_match) ;;; ret pW).

Definition usize_ty : ty := TPrim usize_layout (fun _ => true).

(** bigint.rs:17-32  BigUint::serialize_data: a Vec<usize> at the same address *)
Definition ser_biguint (k : kind) (E : tenv) (m : mem) (vl : vlay) (fuel : nat) (a : N) : M zs unit :=
  ser_vec k E m vl usize_ty a (ser_data k E m fuel).

(** bigint.rs:38-54  BigInt::serialize_data *)
Definition ser_bigint (k : kind) (E : tenv) (m : mem) (bl : bigint_layout) (fuel : nat) (a : N) : M zs unit :=
  data_offset <- bigint_data_offset bl ;;
  ser_biguint k E m (bl_vec bl) fuel (a + data_offset).

(** ** C33 *)

(** The type BigInt as a struct with its two fields. *)
Definition sign_ty (bl : bigint_layout) : ty :=
  TPrim u8_layout (fun n => (n =? bl_byte bl Plus) || (n =? bl_byte bl Minus) || (n =? bl_byte bl NoSign)).
Definition bigint_ty (bl : bigint_layout) : ty :=
  TStruct (mkLayout (4 * pW) pW)
    [(sign_off bl, sign_ty bl); (data_off bl, TVec (bl_vec bl) usize_ty)].

(** Different signs have different bytes. *)
Definition signs_differ (bl : bigint_layout) : Prop := bl_byte bl Plus <> bl_byte bl Minus.

Lemma word_cells_length x : length (word_cells x) = N.to_nat pW.
Proof. unfold word_cells. rewrite map_length. apply to_bytes_length. Qed.

Lemma create_ok {S} (C : machine_ok) bl s (st : S) : s <> NoSign ->
  create_bigint_bytes bl s st =
    Ok (bigint_cells bl s (words_of (bl_vec bl) 0 pW 1)) st.
Proof.
  intros Hs. assert (Hw : pW = 4 \/ pW = 8) by exact C.
  unfold create_bigint_bytes, bind, const_or, biguint_default, vec_offsets, ptr_index.
  destruct Hw as [Hw|Hw]; rewrite Hw; destruct (bl_vec bl) eqn:E; cbn;
    unfold from_biguint, word_at, offsets_words; rewrite E; try rewrite Hw; cbn;
    destruct s; try congruence; reflexivity.
Qed.

Lemma words_cells ws i : (i < N.to_nat pW * length ws)%nat ->
  exists b, nth_error (flat_map word_cells ws) i = Some (Some b).
Proof.
  intros Hi. assert (E : flat_map word_cells ws = map Some (flat_map (to_bytes (N.to_nat pW)) ws)).
  { clear. induction ws as [|w ws IH]; cbn; [auto|]. rewrite IH, map_app. reflexivity. }
  rewrite E, nth_error_map.
  destruct (nth_error (flat_map (to_bytes (N.to_nat pW)) ws) i) as [b|] eqn:En; [exists b; reflexivity|].
  exfalso. apply nth_error_None in En.
  assert (El : length (flat_map (to_bytes (N.to_nat pW)) ws) = (N.to_nat pW * length ws)%nat).
  { clear. induction ws as [|w ws IH]; cbn; [lia|]. rewrite app_length, to_bytes_length, IH. lia. }
  lia.
Qed.
Lemma words_cells_length ws : length (flat_map word_cells ws) = (N.to_nat pW * length ws)%nat.
Proof. induction ws as [|w ws IH]; cbn; [lia|]. rewrite app_length, word_cells_length, IH. lia. Qed.
Lemma words_of_length vl c p n : length (words_of vl c p n) = 3%nat.
Proof. destruct vl; reflexivity. Qed.

(** bigint_data_offset returns the offset of the BigUint, and nothing is read that is not
    initialised. *)
Theorem C33 {S} (C : machine_ok) bl (st : S) :
  signs_differ bl -> bigint_data_offset bl st = Ok (data_off bl) st.
Proof.
  intros Hd. assert (Hw : pW = 4 \/ pW = 8) by exact C.
  unfold bigint_data_offset.
  rewrite (bind_ok _ _ _ _ _ (create_ok C bl Plus st ltac:(discriminate))).
  rewrite (bind_ok _ _ _ _ _ (create_ok C bl Minus st ltac:(discriminate))).
  set (ws := words_of (bl_vec bl) 0 pW 1).
  assert (Hlen : length ws = 3%nat) by apply words_of_length.
  unfold bigint_cells, data_off. destruct (bl_sign_first bl).
  - assert (H0 : forall s, @assume_init S (Some (bl_byte bl s) :: padding ++ flat_map word_cells ws) 0 st
                  = Ok (bl_byte bl s) st) by reflexivity.
    destruct (words_cells ws (N.to_nat pW * 2)) as [b Hb].
    { rewrite Hlen. destruct Hw as [-> | ->]; cbn; lia. }
    assert (H3 : forall s, @assume_init S (Some (bl_byte bl s) :: padding ++ flat_map word_cells ws) (pW * 3) st = Ok b st).
    { intros s. unfold assume_init.
      replace (N.to_nat (pW * 3)) with (1 + (length padding + N.to_nat pW * 2))%nat.
      - cbn [nth_error plus]. rewrite nth_error_app2 by lia.
        replace (length padding + N.to_nat pW * 2 - length padding)%nat with (N.to_nat pW * 2)%nat by lia.
        rewrite Hb. reflexivity.
      - unfold padding. rewrite repeat_length. destruct Hw as [-> | ->]; reflexivity. }
    rewrite (bind_ok _ _ _ _ _ (H0 Plus)), (bind_ok _ _ _ _ _ (H0 Minus)).
    rewrite (bind_ok _ _ _ _ _ (H3 Plus)), (bind_ok _ _ _ _ _ (H3 Minus)).
    apply N.eqb_neq in Hd. rewrite Hd. reflexivity.
  - destruct (words_cells ws 0) as [b Hb].
    { rewrite Hlen. destruct Hw as [-> | ->]; cbn; lia. }
    assert (H0 : forall s, @assume_init S (flat_map word_cells ws ++ Some (bl_byte bl s) :: padding) 0 st = Ok b st).
    { intros s. unfold assume_init. change (N.to_nat 0) with O. rewrite nth_error_app1.
      - rewrite Hb. reflexivity.
      - rewrite words_cells_length, Hlen. destruct Hw as [-> | ->]; cbn; lia. }
    assert (H3 : forall s, @assume_init S (flat_map word_cells ws ++ Some (bl_byte bl s) :: padding) (pW * 3) st
                  = Ok (bl_byte bl s) st).
    { intros s. unfold assume_init.
      replace (N.to_nat (pW * 3)) with (length (flat_map word_cells ws)).
      - rewrite nth_error_app2, PeanoNat.Nat.sub_diag by lia. reflexivity.
      - rewrite words_cells_length, Hlen. destruct Hw as [-> | ->]; reflexivity. }
    rewrite (bind_ok _ _ _ _ _ (H0 Plus)), (bind_ok _ _ _ _ _ (H0 Minus)).
    rewrite (bind_ok _ _ _ _ _ (H3 Plus)), (bind_ok _ _ _ _ _ (H3 Minus)).
    rewrite N.eqb_refl. apply N.eqb_neq in Hd. rewrite Hd. reflexivity.
Qed.

(** Hence serializing a BigInt is serializing the struct of its two fields, so that every
    theorem about structs applies to it ... *)
Theorem C33_serialize (C : machine_ok) k E m bl fuel a :
  signs_differ bl ->
  forall z, ser_bigint k E m bl (S fuel) a z = ser_data k E m (S (S (S fuel))) (bigint_ty bl) a z.
Proof.
  intros Hd z. unfold ser_bigint. rewrite (bind_ok _ _ _ _ _ (C33 C bl z Hd)).
  unfold ser_biguint.
  change (ser_data k E m (S (S (S fuel))) (bigint_ty bl) a z) with
    ((ser_data k E m (S (S fuel)) (sign_ty bl) (a + sign_off bl) ;;;
      (ser_data k E m (S (S fuel)) (TVec (bl_vec bl) usize_ty) (a + data_off bl) ;;; ret tt)) z).
  assert (H0 : ser_data k E m (S (S fuel)) (sign_ty bl) (a + sign_off bl) z = Ok tt z) by reflexivity.
  rewrite (bind_ok _ _ _ _ _ H0).
  change (ser_data k E m (S (S fuel)) (TVec (bl_vec bl) usize_ty) (a + data_off bl)) with
    (ser_vec k E m (bl_vec bl) usize_ty (a + data_off bl) (ser_data k E m (S fuel))).
  unfold bind. destruct (ser_vec k E m (bl_vec bl) usize_ty (a + data_off bl) (ser_data k E m (S fuel)) z)
    as [[] z'| | | |]; reflexivity.
Qed.

Ltac sz := cbv [size_of align_of layout_of l_size l_align sign_ty usize_layout u8_layout usize_ty].
(** ... and BigInt is a supported type. *)
Theorem C33_supported (C : cfg_ok) E bl : pW <= MVA -> wf_ty E (bigint_ty bl).
Proof.
  intros HM. destruct C as [Hw HC]. assert (Hw' : pW = 4 \/ pW = 8) by exact Hw.
  assert (Hp : pow2 pW). { destruct Hw' as [->| ->]; [exists 2|exists 3]; reflexivity. }
  assert (Hi : 4 * pW <= imax). { unfold imax. destruct Hw' as [->| ->]; discriminate. }
  constructor.
  - split; [exact Hp|]. sz. split; [exists 4; reflexivity|]. split; [exact Hi|exact HM].
  - unfold sign_off, data_off. destruct (bl_sign_first bl).
    + constructor.
      * sz; lia.
      * sz; exists 0; lia.
      * sz; lia.
      * intros o u [[= <- <-]|[]]. left. sz; lia.
      * constructor; sz; try lia; [apply N.divide_refl|intros o u []|constructor].
    + constructor.
      * sz; lia.
      * sz; apply N.divide_1_l.
      * sz; lia.
      * intros o u [[= <- <-]|[]]. right. sz; lia.
      * constructor; sz; try lia; [exists 0; lia|intros o u []|constructor].
  - intros o t [[= <- <-]|[[= <- <-]|[]]].
    + constructor. split; [exists 0; reflexivity|]. split; [apply N.divide_refl|].
      split; [unfold imax; destruct Hw' as [->| ->]; discriminate|]. sz; lia.
    + constructor; [|exact HM]. constructor. split; [exact Hp|]. sz. split; [apply N.divide_refl|].
      split; [lia|exact HM].
Qed.

End BigInt.

(** Both layouts, e.g. on a 64-bit little-endian machine. *)
From Verif Require Import PropStorage.
Example C33_witness :
  let bl f := mkBL CPL f (fun s => match s with Minus => 0 | NoSign => 1 | Plus => 2 end) in
  @bigint_data_offset demo unit (bl true) tt = Ok 8 tt /\
  @bigint_data_offset demo unit (bl false) tt = Ok 0 tt.
Proof. split; reflexivity. Qed.
