(** * Conformance: the project's own tests and documentation examples, run through the model.

    These are tests of the transcription, not proofs: the tests of ser_raw/tests (all but the
    generated Minecraft data) and the examples in the documentation are evaluated in the
    model, and give what the tests assert of the program.  The inputs are laid out by
    [build] (Build.v), with the layouts rustc gives. *)
From Verif Require Import Base Types Storage Serializer Serialize Spec ArithFacts PropStorage Demo BigInt Build PropValues.
Local Open Scope N_scope.

(** tests/pure_copy.rs:16-17: AlignedVec<16, 16, 8, aligned_max_capacity(16)>, 64 bits, little
    endian, debug assertions on. *)
Definition tests : Params :=
  {| pW := 8; pBE := false; dbg := true; SA := 16; MVA := 16; VA := 8; MAXC := 9223372036854775792; orc := demo_alloc |}.
#[local] Existing Instance tests.

Example max_capacity : aligned_max_capacity 16 sw_new = Ok MAXC sw_new.
Proof. vm_compute. reflexivity. Qed.

(** ** Types *)

(** rustc: fields in order of decreasing alignment, declaration order among equals. *)
Definition placed := list (option N).
Fixpoint place (al : N) (ts : list ty) (os : placed) (cur : N) : placed * N :=
  match ts, os with
  | t :: ts', o :: os' =>
      if align_of no_env t =? al
      then let o := round_up cur al in
           let '(r, c) := place al ts' os' (o + size_of no_env t) in (Some o :: r, c)
      else let '(r, c) := place al ts' os' cur in (o :: r, c)
  | _, _ => ([], cur)
  end.
Definition place_all (ts : list ty) (start : N) : list (N * ty) * N :=
  let '(os, cur) := fold_left (fun '(os, cur) al => place al ts os cur) [16; 8; 4; 2; 1]
                      (map (fun _ => None) ts, start) in
  (map (fun '(o, t) => (match o with Some x => x | None => 0 end, t)) (combine os ts), cur).
Definition max_align (ts : list ty) : N := fold_right N.max 1 (map (align_of no_env) ts).
Definition rstruct (ts : list ty) : ty :=
  let '(fs, cur) := place_all ts 0 in
  TStruct (mkLayout (round_up cur (max_align ts)) (max_align ts)) fs.
(** #[repr(C)] *)
Fixpoint place_c (ts : list ty) (cur : N) : list (N * ty) * N :=
  match ts with
  | [] => ([], cur)
  | t :: ts' => let o := round_up cur (align_of no_env t) in
                let '(r, c) := place_c ts' (o + size_of no_env t) in ((o, t) :: r, c)
  end.
Definition cstruct (ts : list ty) : ty :=
  let '(fs, cur) := place_c ts 0 in
  TStruct (mkLayout (round_up cur (max_align ts)) (max_align ts)) fs.
(** An enum with a one-byte tag. *)
Definition renum (vss : list (list ty)) : ty :=
  let ps := map (fun ts => place_all ts (max_align ts)) vss in
  let al := max_align (concat vss) in
  TEnum (mkLayout (round_up (fold_right N.max 1 (map snd ps)) al) al)
    (DTag 0 1 (map N.of_nat (seq 0 (length vss)))) (map fst ps).

Definition prim (n : N) : ty := TPrim (mkLayout n n) (fun _ => true).
Definition nonzero (n : N) : ty := TPrim (mkLayout n n) (fun x => negb (x =? 0)).
Definition t_bool : ty := TPrim (mkLayout 1 1) (fun x => x <? 2).
Definition t_char : ty := TPrim (mkLayout 4 4) (fun x => (x <? 55296) || ((57343 <? x) && (x <? 1114112))).
Definition vec (t : ty) : ty := TVec PCL t.
Definition string : ty := TString PCL.

(** ** Reading an output the way a program with the types does *)
Section Read.
Variable m : mem.
Fixpoint rd_elems (f : N -> option val) (sz : N) (n : nat) (a : N) : option (list val) :=
  match n with
  | O => Some []
  | S n' => match f a, rd_elems f sz n' (a + sz) with Some v, Some vs => Some (v :: vs) | _, _ => None end
  end.
Fixpoint rd_fields (f : ty -> N -> option val) (fs : list (N * ty)) (a : N) : option (list val) :=
  match fs with
  | [] => Some []
  | (o, t) :: fs' => match f t (a + o), rd_fields f fs' a with Some v, Some vs => Some (v :: vs) | _, _ => None end
  end.
Fixpoint read_val (fuel : nat) (t : ty) (a : N) : option val :=
  match fuel with
  | O => None
  | S f =>
      let rv := read_val f in
      match t with
      | TPrim l ok => match read_int m a (l_size l) with Some n => if ok n then Some (VPrim n) else None | None => None end
      | TBox t' => match read_word m a with Some p => option_map VBox (rv t' p) | None => None end
      | TVec vl t' =>
          match read_word m (a + ptr_off vl), read_word m (a + len_off vl) with
          | Some p, Some n => option_map VVec (rd_elems (rv t') (size_of no_env t') (N.to_nat n) p)
          | _, _ => None
          end
      | TString vl =>
          match read_word m (a + ptr_off vl), read_word m (a + len_off vl) with
          | Some p, Some n => option_map VString (read_bytes m p (N.to_nat n))
          | _, _ => None
          end
      | TArray t' n => option_map VArray (rd_elems (rv t') (size_of no_env t') (N.to_nat n) a)
      | TStruct _ fs => option_map VStruct (rd_fields rv fs a)
      | TEnum _ d vss =>
          match read_discr m a d with
          | Some k => match nth_error vss k with
                      | Some fs => option_map (VEnum k) (rd_fields rv fs a)
                      | None => None
                      end
          | None => None
          end
      | TNamed _ => None
      end
  end.
End Read.

(** ** The tests *)

(** tests/pure_copy.rs:25-60, ptr_offset.rs:25-61, complete.rs:29-34: the position, the size of
    the output, and the value read back. *)
Definition run (spare : N) (k : kind) (t : ty) (v : val) : option (N * N * option val) :=
  let (m, a) := build no_env spare t v in
  match serialize k no_env m 10 t a (from_storage sw_new) with
  | Ok pos z =>
      let w := z_sw z in
      Some (pos, s_pos (sw_s w),
            match k with
            | PureCopy | PosTracking => decode_root no_env (out_mem 0 w) 10 t pos
            | PtrOffset => read_val (out_mem 0 w) 10 t pos
            | Complete => let base := s_ptr (sw_s w) in read_val (out_mem base w) 10 t (base + pos)
            end)
  | _ => None
  end.
Definition test (spare : N) (t : ty) (v : val) (expected_size : N) : Prop :=
  forall k, run spare k t v = Some (0, expected_size, Some v).
Ltac ok := intros k; destruct k; vm_compute; reflexivity.

Definition u8 := prim 1. Definition u16 := prim 2. Definition u32 := prim 4.
Definition u64 := prim 8. Definition u128 := prim 16.
Definition n128 : N := 21356283574076891493948969979685445151.   (* 0x101112131415161718191a1b1c1d1e1f *)

(** mod.rs:36-77 *)
Example primitives : test 0
  (rstruct [u8; u16; u32; u64; u128; u8; u16; u32; u64; u128; u64; u64; u32; u64; t_bool; t_char])
  (VStruct (map VPrim [1; 515; 67438087; 579005069656919567; n128; 1; 515; 67438087; 579005069656919567; n128;
                       18446744073709551615; 4611686018427387903; 2139095039; 9214364837600034815; 1; 99])) 96.
Proof. ok. Qed.
(** mod.rs:79-115 *)
Example non_zero_numbers : test 0
  (rstruct (map nonzero [1; 2; 4; 8; 16; 8; 1; 2; 4; 8; 16; 8]))
  (VStruct (map VPrim [1; 515; 67438087; 579005069656919567; n128; 18446744073709551615; 1; 515; 67438087;
                       579005069656919567; n128; 4611686018427387903])) 80.
Proof. ok. Qed.
(** mod.rs:117-134 *)
Example arrays : test 0
  (rstruct [TArray u8 0; TArray u8 1; TArray u16 2; TArray u32 3])
  (VStruct [VArray []; VArray [VPrim 1]; VArray [VPrim 515; VPrim 1029];
            VArray [VPrim 101124105; VPrim 168496141; VPrim 235868177]]) 24.
Proof. ok. Qed.
(** mod.rs:136-157 *)
Example arrays_of_boxes : test 0
  (rstruct [TArray (TBox u8) 0; TArray (TBox u8) 1; TArray (TBox u16) 2; TArray (TBox u32) 3])
  (VStruct [VArray []; VArray [VBox (VPrim 1)]; VArray [VBox (VPrim 515); VBox (VPrim 1029)];
            VArray [VBox (VPrim 101124105); VBox (VPrim 168496141); VBox (VPrim 235868177)]]) 96.
Proof. ok. Qed.
(** mod.rs:159-172 *)
Example tuples : test 0
  (rstruct [rstruct [u8; u16; u32]; rstruct [TBox u8; TBox u16; TBox u32]])
  (VStruct [VStruct [VPrim 1; VPrim 515; VPrim 67438087];
            VStruct [VBox (VPrim 8); VBox (VPrim 2314); VBox (VPrim 185339150)]]) 56.
Proof. ok. Qed.
(** mod.rs:174-186 *)
Example enum_fieldless :
  test 0 (renum [[]; []; []]) (VEnum 0 []) 8 /\ test 0 (renum [[]; []; []]) (VEnum 1 []) 8 /\
  test 0 (renum [[]; []; []]) (VEnum 2 []) 8.
Proof. repeat split; ok. Qed.
(** mod.rs:188-220 *)
Definition t_bar := rstruct [u8; u32].
Definition t_qux := renum [[u8]; [u16]].
Definition t_foo_enum := renum [[t_bar]; [t_qux]].
Example enum_with_fields :
  test 0 t_foo_enum (VEnum 0 [VStruct [VPrim 1; VPrim 515]]) 16 /\
  test 0 t_foo_enum (VEnum 1 [VEnum 0 [VPrim 4]]) 16 /\
  test 0 t_foo_enum (VEnum 1 [VEnum 1 [VPrim 1286]]) 16.
Proof. repeat split; ok. Qed.
(** mod.rs:222-264 *)
Example boxed_primitives : test 0
  (rstruct (map TBox [u8; u16; u32; u64; u128; u8; u16; u32; u64; u128; u64; u64; u32; u64; t_bool; t_char]))
  (VStruct (map (fun n => VBox (VPrim n))
     [1; 515; 67438087; 579005069656919567; n128; 1; 515; 67438087; 579005069656919567; n128;
      18446744073709551615; 4611686018427387903; 2139095039; 9214364837600034815; 1; 99])) 272.
Proof. ok. Qed.
(** mod.rs:266-291 *)
Example boxed_structs : test 0
  (rstruct [TBox (rstruct [u8; TBox u32]); TBox (rstruct [u8; TBox u32])])
  (VStruct [VBox (VStruct [VPrim 1; VBox (VPrim 33752069)]); VBox (VStruct [VPrim 1; VBox (VPrim 117967114)])]) 64.
Proof. ok. Qed.
(** mod.rs:293-332 *)
Definition t_vecs := rstruct [vec u8; vec u16; vec u32].
Example vec_of_primitives :
  test 0 t_vecs (VStruct [VVec []; VVec []; VVec []]) 72 /\
  test 0 t_vecs (VStruct [VVec [VPrim 1]; VVec [VPrim 515]; VVec [VPrim 67438087]]) 96 /\
  test 0 t_vecs (VStruct [VVec (map VPrim [1; 2; 3]); VVec (map VPrim [1029; 1543; 2057; 2571; 3085]);
                          VVec (map VPrim [235868178; 320083222; 387455258])]) 112.
Proof. repeat split; ok. Qed.
(** mod.rs:334-346 *)
Example vec_of_vecs : test 0 (vec (vec u8))
  (VVec [VVec (map VPrim [1; 2; 3]); VVec (map VPrim [4; 5; 6; 7; 8; 9]); VVec [VPrim 10]; VVec [];
         VVec (map VPrim [11; 12]); VVec (map VPrim [13; 14; 15; 16]); VVec []]) 232.
Proof. ok. Qed.
(** mod.rs:348-386 *)
Example vecs_with_zero_len_zero_capacity : test 0 (vec u8) (VVec []) 24. Proof. ok. Qed.
Example vecs_with_zero_len_excess_capacity : test 5 (vec u8) (VVec []) 24. Proof. ok. Qed.
Example vecs_with_zero_len_excess_capacity2 : test 4 (vec u32) (VVec []) 24. Proof. ok. Qed.
Example vecs_with_excess_capacity : test 4 (vec u8) (VVec [VPrim 1]) 32. Proof. ok. Qed.
Example vecs_with_excess_capacity2 : test 1 (vec u32) (VVec (map VPrim [16909060; 84281096; 151653132])) 40. Proof. ok. Qed.
(** mod.rs:388-432 *)
Example strings :
  test 0 string (VString [97; 98; 99]) 32 /\ test 0 string (VString [100]) 32 /\
  test 0 string (VString [101; 102; 103; 104; 105; 106; 107; 108]) 32 /\
  test 0 string (VString [77; 78; 79; 80; 81; 82; 83; 84; 73; 86; 87; 88; 89; 90]) 40.
Proof. repeat split; ok. Qed.
Example strings_with_zero_len_zero_capacity : test 0 string (VString []) 24. Proof. ok. Qed.
Example strings_with_zero_len_excess_capacity : test 5 string (VString []) 24. Proof. ok. Qed.
Example strings_with_zero_len_excess_capacity2 : test 8 string (VString []) 24. Proof. ok. Qed.
Example strings_with_excess_capacity : test 4 string (VString [120]) 32. Proof. ok. Qed.
Example strings_with_excess_capacity2 : test 1 string (VString [97; 98; 99]) 32. Proof. ok. Qed.
(** mod.rs:434-514 *)
Definition option_by (ptr : N) (t : ty) : ty := TEnum (layout_of no_env t) (DNiche ptr 8 1 [(0, 0%nat)]) [[]; [(0, t)]].
Definition t_options := rstruct [renum [[]; [t_bar]]; option_by 0 (TBox t_bar); option_by 0 (vec t_bar); option_by 0 string].
Definition None_ := VEnum 0 []. Definition Some_ v := VEnum 1 [v].
Definition bar a b := VStruct [VPrim a; VPrim b].
Example options :
  test 0 t_options (VStruct [None_; None_; None_; None_]) 72 /\
  test 0 t_options (VStruct [Some_ (bar 1 515); None_; None_; Some_ (VString [])]) 72 /\
  test 0 t_options (VStruct [None_; Some_ (VBox (bar 4 1286)); Some_ (VVec [bar 7 2057; bar 10 2828; bar 13 3599]); None_]) 104 /\
  test 0 t_options (VStruct [Some_ (bar 16 4370); Some_ (VBox (bar 19 5141)); Some_ (VVec [bar 22 5912]);
                             Some_ (VString [100; 101; 102])]) 96.
Proof. repeat split; ok. Qed.
(** mod.rs:516-574; BigUint is a Vec of 64-bit digits; the big ones have 9 32-bit digits *)
Definition digits (l : list N) := VVec (map VPrim l).
Example biguints : test 0 (TArray (vec u64) 4)
  (VArray [digits []; digits [16909060]; digits [361984551075317512]; digits [940705933712558860;
   1519427316417172244;
   2098148699121785628;
   2676870081826399012;
   690629420]]) 152.
Proof. ok. Qed.
Definition num_bigint_layout := mkBL PCL false (fun s => match s with Minus => 0 | NoSign => 1 | Plus => 2 end).
Example bigints : test 0 (TArray (bigint_ty num_bigint_layout) 7)
  (VArray (map (fun '(s, ds) => VStruct [VPrim s; digits ds])
    [(1, []); (2, [16909060]); (2, [361984551075317512]); (2, [940705933712558860;
   1519427316417172244;
   2098148699121785628;
   2676870081826399012;
   690629420]);
     (0, [825373492]); (0, [3834312847302997816]); (0, [4413034229940239164;
   4991755612644852548;
   5570476995349465932;
   6149198378054079316;
   1499093852])])) 336.
Proof. ok. Qed.
(** mod.rs:576-603 *)
Example structure_where_storage_grows_after_last_pointer_written : test 8
  (cstruct [TBox u32; vec u8; string; TBox u8])
  (VStruct [VBox (VPrim 1144201745); VVec (map VPrim [128; 129; 130; 131; 132; 133; 134; 135]);
            VString [119; 101; 108; 108; 32; 104; 101; 108; 108; 111; 33; 32; 98; 108; 97; 104; 32; 98; 108; 97; 104; 32; 98; 108; 97; 104; 32; 98; 108; 97; 104; 32; 98; 108; 97; 104; 32; 102; 108; 97; 112; 115; 33]; VBox (VPrim 255)]) 136.
Proof. ok. Qed.

(** ** tests/complete.rs *)

(** The three words of the output: complete.rs:38-82, 113-157 (zero length: 0, dangling, 0),
    84-111 and 159-188 (capacity = length). *)
Definition complete_words (spare : N) (t : ty) (v : val) : option (N * N * list (option N)) :=
  let (m, a) := build no_env spare t v in
  match serialize Complete no_env m 10 t a (from_storage sw_new) with
  | Ok pos z =>
      let st := sw_s (z_sw z) in
      Some (pos, s_pos st, map (fun o => read_word (s_buf st) (pos + o)) [cap_off PCL; ptr_off PCL; len_off PCL])
  | _ => None
  end.
Example vecs_with_zero_len_represented_correctly :
  complete_words 0 (vec u8) (VVec []) = Some (0, 24, [Some 0; Some 1; Some 0]) /\
  complete_words 5 (vec u8) (VVec []) = Some (0, 24, [Some 0; Some 1; Some 0]) /\
  complete_words 4 (vec u32) (VVec []) = Some (0, 24, [Some 0; Some 4; Some 0]).
Proof. vm_compute. repeat split. Qed.
Example strings_with_zero_len_represented_correctly :
  complete_words 0 string (VString []) = Some (0, 24, [Some 0; Some 1; Some 0]) /\
  complete_words 5 string (VString []) = Some (0, 24, [Some 0; Some 1; Some 0]) /\
  complete_words 8 string (VString []) = Some (0, 24, [Some 0; Some 1; Some 0]).
Proof. vm_compute. repeat split. Qed.
Definition cap_len (o : option (N * N * list (option N))) :=
  match o with Some (pos, _, [c; _; n]) => Some (pos, c, n) | _ => None end.
Example excess_capacity_represented_correctly :
  cap_len (complete_words 4 (vec u8) (VVec [VPrim 1])) = Some (0, Some 1, Some 1) /\
  cap_len (complete_words 1 (vec u32) (VVec (map VPrim [16909060; 84281096; 151653132]))) = Some (0, Some 3, Some 3) /\
  cap_len (complete_words 4 string (VString [120])) = Some (0, Some 1, Some 1) /\
  cap_len (complete_words 1 string (VString [97; 98; 99])) = Some (0, Some 3, Some 3).
Proof. vm_compute. repeat split. Qed.

(** ** Examples in the documentation *)

(** storage/aligned_vec.rs:33-56 *)
Definition look (w : sw) := (s_pos (sw_s w), s_cap (sw_s w)).
Example aligned_vec_example :
  match with_capacity 8 sw_new with
  | Ok _ w =>
      s_ptr (sw_s w) mod 16 = 0 /\ look w = (0, 16) /\
      match push (mkLayout 4 4) (bytes_src (le_bytes 4 100)) w with
      | Ok _ w =>
          look w = (8, 16) /\
          match push_slice (mkLayout 8 8) 2 (bytes_src (le_bytes 8 200 ++ le_bytes 8 300)) w with
          | Ok _ w => look w = (24, 32)
          | _ => False
          end
      | _ => False
      end
  | _ => False
  end.
Proof. vm_compute. repeat split. Qed.

(** serializer.rs:205-216 *)
Example serialize_example : run 0 PureCopy t_bar (bar 1 2) = Some (0, 8, Some (bar 1 2)).
Proof. vm_compute. reflexivity. Qed.
(** serializer.rs:234-256 *)
Example serialize_value_example :
  let (m1, a1) := build no_env 0 t_bar (bar 1 2) in
  let (m2, a2) := build no_env 0 t_bar (bar 3 4) in
  let m := fun i => if i <? 4096 then m1 i else m2 (i - 4096) in
  match serialize_all PureCopy no_env m 10 [(t_bar, a1); (t_bar, a2 + 4096)] (from_storage sw_new) with
  | Ok ps z => (s_pos (sw_s (z_sw z)), ps) = (16, [0; 8])
  | _ => False
  end.
Proof. vm_compute. reflexivity. Qed.
(** serializers/ptr_offset.rs:21-39 *)
Example ptr_offset_example :
  let (m, a) := build no_env 0 (TBox u8) (VBox (VPrim 123)) in
  match serialize PtrOffset no_env m 10 (TBox u8) a (from_storage sw_new) with
  | Ok pos z =>
      let b := s_buf (sw_s (z_sw z)) in
      pos = 0 /\
      match read_word b pos with
      | Some offset => offset = 8 /\ b (pos + offset) = Some 123
      | None => False
      end
  | _ => False
  end.
Proof. vm_compute. repeat split. Qed.
(** serializers/complete.rs:42-63 *)
Example complete_example : run 0 Complete (TBox u8) (VBox (VPrim 123)) = Some (0, 16, Some (VBox (VPrim 123))).
Proof. vm_compute. reflexivity. Qed.
