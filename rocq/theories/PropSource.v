(** * PropSource (C81): every program's types.  For any declarations the compiler accepts, with the layout
    the Rust reference prescribes for repr(C)/repr(uN), the hypotheses of the other theorems are met, and
    every value of every type can be serialized and read back. *)
From Verif Require Import Base Types Storage Serializer Serialize Spec ArithFacts StorageFacts MemFacts TypeFacts
  SerFacts SerValue SerRoot SerProps PropStorage PropSerialize Demo WitnessSerialize PropEncode Build PropValues Source.
From Coq Require Import List Arith Lia.
Import ListNotations.
Local Open Scope N_scope.

(** The declared types are supported types. *)
Theorem C81_supported {P : Params} : forall vl D s,
  cfg_ok -> program_accepted D -> type_accepted D s ->
  wf_env (type_env vl D) /\ wf_ty (type_env vl D) (type_of vl D s).
Proof.
  intros vl D s C [HS HA] [Hs Ha]. split.
  - apply wf_source; auto.
  - eapply wf_elab; eauto.
Qed.

(** The values of the type with its layout are the values of the type expression. *)
Theorem C81_values {P : Params} : forall vl D s v,
  cfg_ok -> program_accepted D ->
  has_sty D s v <-> has_ty (type_env vl D) (type_of vl D s) v.
Proof. intros vl D s v C [HS HA]. apply has_sty_iff; auto. Qed.

(** Every value of every type of every program: it exists in memory, serializing it succeeds, and the
    output gives it back -- in place for the kinds that write pointers. *)
Theorem C81_every_program {P : Params} : forall vl k D s v w,
  cfg_ok -> alloc_ok -> alloc_succeeds -> program_accepted D -> type_accepted D s -> storage_ok w ->
  has_sty D s v ->
  let E := type_env vl D in let t := type_of vl D s in
  end_pos (s_pos (sw_s w)) (allocations E t v) <= MAXC ->
  exists m a p z,
    valid_input E any_header m t a v /\
    serialize k E m (S (vdepth v)) t a (from_storage w) = Ok p z /\
    (forall f, (vdepth v < f)%nat -> decode_root E (out_mem 0 (z_sw z)) f t p = Some v) /\
    (k = PtrOffset -> repr E any_header (out_mem 0 (z_sw z)) t p v) /\
    (k = Complete -> let base := s_ptr (sw_s (z_sw z)) in
                     repr E any_header (out_mem base (z_sw z)) t (base + p) v).
Proof.
  intros vl k D s v w C HA HF HD Ht Hw Hv E t He.
  destruct (C81_supported vl D s C HD Ht) as [WE WT]. fold E in WE. fold E t in WT.
  pose proof (proj1 (C81_values vl D s v C HD) Hv) as Hty. fold E t in Hty.
  pose proof (C71_serialize k E t v w C HA HF WE WT Hw Hty He) as Hs.
  pose proof (C71_every_value E t v C WE WT Hty) as Hb.
  destruct (build E 0 t v) as [m a]. destruct Hs as (p & z & Hs).
  assert (Hi : valid_input E any_header m t a v).
  { apply Hb.
    assert (H0 : end_pos 0 (allocations E t v) <= end_pos (s_pos (sw_s w)) (allocations E t v)).
    { apply (end_pos_mono C); [apply (allocations_good C E t v WE WT)|lia]. }
    pose proof (room_ok C). lia. }
  exists m, a, p, z. split; [exact Hi|]. split; [exact Hs|].
  split; [intros f Hf; eapply (C18_pure_copy k E m t a v w (S (vdepth v)) p z f); auto with arith|].
  split; [intros ->; eapply (C19_ptr_offset E m t a v w (S (vdepth v)) p z); auto with arith|].
  intros ->. eapply (C21_complete E m t a v w (S (vdepth v)) p z); auto with arith.
Qed.

(** ** A concrete program
    [struct Leaf { id: u64, flag: u8 }
     #[repr(u8)] enum Node { Nil, Cons { head: Leaf, tail: Box<Node> }, Many(Vec<Tree>) }
     struct Tree { name: String, mark: Option<u32>, node: Node, next: Option<Box<Tree>>, xs: [(u8, u16); 2] }] *)
Definition s_u8 := SPrim (mkLayout 1 1) (fun _ => true).
Definition s_u16 := SPrim (mkLayout 2 2) (fun _ => true).
Definition s_u32 := SPrim (mkLayout 4 4) (fun _ => true).
Definition s_u64 := SPrim (mkLayout 8 8) (fun _ => true).
Definition demo_decls : list decl :=
  [ DStruct [s_u64; s_u8];
    DEnum 1 [ []; [SName 0; SBox (SName 1)]; [SVec (SName 2)] ];
    DStruct [SString; SOption s_u32; SName 1; SOptBox (SName 2); SArray (STuple [s_u8; s_u16]) 2] ].
Definition v_leaf n f := VStruct [VPrim n; VPrim f].
Definition v_pairs := VArray [VStruct [VPrim 1; VPrim 513]; VStruct [VPrim 2; VPrim 1027]].
Definition v_small (node : val) :=
  VStruct [VString [104; 105]; VEnum 0 []; node; VEnum 0 []; v_pairs].
Definition demo_tree : val :=
  VStruct [VString [97; 98; 99]; VEnum 1 [VPrim 70000];
           VEnum 2 [VVec [v_small (VEnum 1 [v_leaf 7 1; VBox (VEnum 0 [])]); v_small (VEnum 0 [])]];
           VEnum 1 [VBox (v_small (VEnum 1 [v_leaf 8 2; VBox (VEnum 1 [v_leaf 9 3; VBox (VEnum 0 [])])]))];
           v_pairs].

Ltac conc' := first [exact pow2_1 | exact pow2_2 | exact pow2_4 | exact pow2_8
  | apply divc; [vm_compute; reflexivity | vm_compute; discriminate]
  | apply lec; vm_compute; reflexivity | exact Logic.I].

Theorem C81_hypotheses :
  program_accepted (P := demo) demo_decls /\ type_accepted (P := demo) demo_decls (SName 2) /\
  has_sty (P := demo) demo_decls (SName 2) demo_tree /\
  map (fun l => (l_size l, l_align l)) (layouts (P := demo) demo_decls) = [(16, 8); (32, 8); (80, 8)].
Proof.
  split; [split|split; [|split]].
  - intros i d Hi. destruct i as [|[|[|i]]]; simpl in Hi; [| | |destruct i; discriminate]; injection Hi as <-;
      cbn; repeat split; auto with arith; repeat constructor; cbn; auto with arith.
  - repeat constructor; cbn [l_size l_align]; conc'.
  - split; [cbn; auto with arith|]. split; [split; conc'|exact Logic.I].
  - repeat (first [eapply HS_struct; [reflexivity|] | eapply HS_enum; [reflexivity|reflexivity|] | constructor]);
      try (apply ltc; vm_compute; reflexivity); reflexivity.
  - vm_compute. reflexivity.
Qed.

Theorem C81_witness :
  forall k,
  let E := type_env (P := demo) CPL demo_decls in let t := type_of (P := demo) CPL demo_decls (SName 2) in
  let (m, a) := build (P := demo) E 0 t demo_tree in
  match serialize (P := demo) k E m 12 t a (from_storage demo_w) with
  | Ok p z => (p, s_pos (sw_s (z_sw z))) = (0, 448) /\
              decode_root (P := demo) E (out_mem 0 (z_sw z)) 12 t p = Some demo_tree
  | _ => False
  end.
Proof. intros k. destruct k; vm_compute; split; reflexivity. Qed.
