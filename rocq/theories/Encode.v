(** * Encode: a reference encoder (specification).

    What the output of each serializer must be, byte for byte, as a function of the input
    memory only: which blocks of the input are copied where, and which words of the copies
    are replaced.  Written from the documentation (ser_raw/README.md, ser_raw/src/lib.rs,
    ser_raw/src/serializers/*.rs) and the vocabulary of Base, Types and Spec; it does
    not use the model of the code. *)
From Verif Require Import Base Types Storage Serializer Spec.
Local Open Scope N_scope.

(** A word written over a copy: a pointer to a position of the output, or a number. *)
Inductive patch := PPtr (target : N) | PWord (x : N).

(** [e_copies]: (position, input address, bytes); [e_patches]: (position, word);
    [e_end]: where the next block may start. *)
Record enc := mkEnc { e_copies : list (N * N * N); e_patches : list (N * patch); e_end : N }.

Definition nothing (cur : N) : enc := mkEnc [] [] cur.

Section Encode.
Context {P : Params}.
Variable k : kind.
Variable E : tenv.
Variable m : mem.

(** Does the serializer rewrite pointers?  Does it also rewrite capacities? *)
Definition fixes_ptrs : bool := match k with PtrOffset | Complete => true | _ => false end.
Definition fixes_caps : bool := match k with Complete => true | _ => false end.

(** [x] then [f] from where [x] ended. *)
Definition then_enc (x : option enc) (f : N -> option enc) : option enc :=
  match x with
  | Some e1 =>
      match f (e_end e1) with
      | Some e2 => Some (mkEnc (e_copies e1 ++ e_copies e2) (e_patches e1 ++ e_patches e2) (e_end e2))
      | None => None
      end
  | None => None
  end.

(** [n] values of layout [l] at address [tp], referred to by the pointer at position [q]: a
    block, preceded by the patches [ws], followed by what the values own ([inner st cur]). *)
Definition block_enc (ws : list (N * patch)) (q : N) (l : layout) (tp n cur : N)
    (inner : N -> N -> option enc) : option enc :=
  let st := push_start cur l in
  then_enc
    (Some (mkEnc [(st, tp, l_size l * n)]
             (ws ++ if fixes_ptrs then [(q, PPtr st)] else []) (push_end cur l n)))
    (inner st).

(** [n] values [sz] bytes apart, at address [a], their copy at [p]. *)
Fixpoint enc_elems (f : N -> N -> N -> option enc) (sz : N) (n : nat) (a p cur : N) : option enc :=
  match n with
  | O => Some (nothing cur)
  | S n' => then_enc (f a p cur) (enc_elems f sz n' (a + sz) (p + sz))
  end.
Fixpoint enc_fields (f : ty -> N -> N -> N -> option enc) (fs : list (N * ty)) (a p cur : N) : option enc :=
  match fs with
  | [] => Some (nothing cur)
  | (off, t) :: fs' => then_enc (f t (a + off) (p + off) cur) (enc_fields f fs' a p)
  end.

(** The words of a Vec or String with capacity [c], pointer [tp] and length [n], at position
    [p]: nothing to do for zero-sized elements; an empty one loses its spare capacity
    (Complete), one with elements is followed by them and its capacity becomes its length
    (Complete). *)
Definition enc_vec (vl : vlay) (l : layout) (c tp n p cur : N) (inner : N -> N -> option enc) : option enc :=
  if l_size l =? 0 then Some (nothing cur)
  else if n =? 0 then
    Some (mkEnc [] (if fixes_caps && negb (c =? 0)
                    then [(p + cap_off vl, PWord 0); (p + ptr_off vl, PWord (l_align l))] else []) cur)
  else
    block_enc (if fixes_caps && negb (c =? n) then [(p + cap_off vl, PWord n)] else [])
      (p + ptr_off vl) l tp n cur inner.

(** What the [t] at address [a], already copied to position [p], needs. *)
Fixpoint encode (fuel : nat) (t : ty) (a p cur : N) : option enc :=
  match fuel with
  | O => None
  | S fuel' =>
      match resolve E t with
      | TPrim _ _ => Some (nothing cur)
      | TBox t' =>
          if size_of E t' =? 0 then Some (nothing cur)
          else match read_word m a with
               | Some tp => block_enc [] p (layout_of E t') tp 1 cur (encode fuel' t' tp)
               | None => None
               end
      | TVec vl t' =>
          match read_word m (a + cap_off vl), read_word m (a + ptr_off vl), read_word m (a + len_off vl) with
          | Some c, Some tp, Some n =>
              enc_vec vl (layout_of E t') c tp n p cur
                (enc_elems (encode fuel' t') (size_of E t') (N.to_nat n) tp)
          | _, _, _ => None
          end
      | TString vl =>
          match read_word m (a + cap_off vl), read_word m (a + ptr_off vl), read_word m (a + len_off vl) with
          | Some c, Some tp, Some n => enc_vec vl u8_layout c tp n p cur (fun _ cur' => Some (nothing cur'))
          | _, _, _ => None
          end
      | TArray t' n => enc_elems (encode fuel' t') (size_of E t') (N.to_nat n) a p cur
      | TStruct _ fs => enc_fields (encode fuel') fs a p cur
      | TEnum _ d vss =>
          match read_discr m a d with
          | Some v =>
              match nth_error vss v with
              | Some fs => enc_fields (encode fuel') fs a p cur
              | None => None
              end
          | None => None
          end
      | TNamed _ => None
      end
  end.

(** Values serialized one after the other, from position [cur]. *)
Definition encode_root (fuel : nat) (t : ty) (a cur : N) : option enc :=
  if size_of E t =? 0 then Some (nothing cur)
  else
    let l := layout_of E t in
    let st := push_start cur l in
    then_enc (Some (mkEnc [(st, a, l_size l)] [] (push_end cur l 1))) (encode fuel t a st).
Fixpoint encode_all (fuel : nat) (xs : list (ty * N)) (cur : N) : option enc :=
  match xs with
  | [] => Some (nothing cur)
  | (t, a) :: xs' => then_enc (encode_root fuel t a cur) (encode_all fuel xs')
  end.

(** Where a copy lies; where the allocations [ps] lie, from position [cur]. *)
Definition extent (x : N * N * N) : N * N := let '(p, _, n) := x in (p, n).
Fixpoint blocks (cur : N) (ps : list (layout * N)) : list (N * N) :=
  match ps with
  | [] => []
  | (l, n) :: ps' => (push_start cur l, l_size l * n) :: blocks (push_end cur l n) ps'
  end.

(** The byte the output must have at position [i], [B] being the address pointers are
    relative to: that of a patch, or else that of the copied block, or else unspecified (padding
    between blocks). *)
Definition patch_src (B : N) (w : patch) : mem :=
  match w with PPtr t => word_src (B + t) | PWord x => word_src x end.
Definition patch_at (i : N) (x : N * patch) : bool := (fst x <=? i) && (i <? fst x + pW).
Definition copy_at (i : N) (x : N * N * N) : bool :=
  let '(p, _, n) := x in (p <=? i) && (i <? p + n).
Definition specified (e : enc) (i : N) : bool := existsb (patch_at i) (e_patches e) || existsb (copy_at i) (e_copies e).
Definition byte_at (B : N) (e : enc) (i : N) : cell :=
  match find (patch_at i) (e_patches e) with
  | Some (q, w) => patch_src B w (i - q)
  | None =>
      match find (copy_at i) (e_copies e) with
      | Some (p, a, _) => m (a + (i - p))
      | None => None
      end
  end.

End Encode.
