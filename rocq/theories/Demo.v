(** * Demo: a concrete program state used by the witnesses.

    struct Demo { a: u32, opt: Option<Box<u64>>, v: Vec<u16>, s: String, e: Vec<u32> }
    (88 bytes, alignment 8) at address 0x1000 of a 64-bit little endian machine,
    with v = [258, 772] of capacity 4, s = "hi", e empty with capacity 3, and an
    alternative state with opt = None. *)
From Verif Require Import Base Types Storage Serializer Serialize Spec ArithFacts StorageFacts MemFacts PropStorage.
Local Open Scope N_scope.

Definition t_u8 := TPrim (mkLayout 1 1) (fun _ => true).
Definition t_u16 := TPrim (mkLayout 2 2) (fun _ => true).
Definition t_u32 := TPrim u32_layout (fun _ => true).
Definition t_u64 := TPrim u64_layout (fun _ => true).
(** Option<Box<u64>>: null means None. *)
Definition t_opt := TEnum (mkLayout 8 8) (DNiche 0 8 1 [(0, 0%nat)]) [[]; [(0, TBox t_u64)]].
Definition t_demo := TStruct (mkLayout 88 8)
  [(0, t_u32); (8, t_opt); (16, TVec CPL t_u16); (40, TString PCL); (64, TVec LPC t_u32)].

(** Memory from a list of chunks. *)
Fixpoint chunks (l : list (N * list N)) : mem :=
  match l with
  | [] => no_mem
  | (a, bs) :: l' => fun i => if (a <=? i) && (i <? a + N.of_nat (length bs))
                              then nth_error bs (N.to_nat (i - a)) else chunks l' i
  end.
Definition w64 (x : N) : list N := le_bytes 8 x.

Definition demo_mem : mem := chunks
  [ (4096, [42;0;0;0]);
    (4104, w64 8192);                            (* opt: Some(box at 0x2000) *)
    (4112, w64 4 ++ w64 8208 ++ w64 2);          (* v: cap 4, ptr 0x2010, len 2 *)
    (4136, w64 8224 ++ w64 2 ++ w64 2);          (* s: ptr 0x2020, cap 2, len 2 *)
    (4160, w64 0 ++ w64 8240 ++ w64 3);          (* e: len 0, ptr 0x2030, cap 3 *)
    (8192, w64 77);
    (8208, [2;1;4;3]);
    (8224, [104;105]) ].
Definition demo_val : val :=
  VStruct [ VPrim 42; VEnum 1 [VBox (VPrim 77)]; VVec [VPrim 258; VPrim 772]; VString [104;105]; VVec [] ].

Definition no_env : tenv := fun _ => None.
Lemma no_env_wf : @wf_env demo no_env. Proof. intros id d H. discriminate. Qed.

Ltac dv := apply divc; [vm_compute; reflexivity|discriminate].
Ltac le := apply N.leb_le; vm_compute; reflexivity.

Lemma good_demo s a : pow2 a -> (a | s) -> s <= 1000 -> a <= 16 -> @good_layout demo (mkLayout s a).
Proof.
  intros H1 H2 H3 H4. unfold good_layout. cbn [l_size l_align]. ands; auto.
  change (@imax demo) with 9223372036854775807. lia.
Qed.
Ltac gl := apply good_demo; [first [exact pow2_1|exact pow2_2|exact pow2_4|exact pow2_8]|dv|lia|lia].

Lemma t_opt_wf : @wf_ty demo no_env t_opt.
Proof.
  apply W_enum; [gl| | |].
  - eapply (DO_niche (P := demo) no_env _ _ 0 8 1%nat [(0,0%nat)] [(0, TBox t_u64)] 0 (TBox t_u64) 0).
    + cbn. lia.
    + intros n k [H|[]]. inversion H; subst. discriminate.
    + intros k gs H Hk o t Hin. destruct k as [|[|k]]; cbn in H.
      * inversion H; subst. destruct Hin.
      * congruence.
      * destruct k; discriminate.
    + reflexivity.
    + left. reflexivity.
    + reflexivity.
    + apply (NV_box (P := demo)). intros n Hn k [H|[]]. inversion H; subst. congruence.
  - intros k fs H. destruct k as [|[|k]]; cbn in H.
    + inversion H; subst. constructor.
    + inversion H; subst. constructor; [vm_compute; discriminate|exists 0; reflexivity|vm_compute; discriminate|intros o u []|constructor].
    + destruct k; discriminate.
  - intros k fs o t H Hin. destruct k as [|[|k]]; cbn in H.
    + inversion H; subst. destruct Hin.
    + inversion H; subst. destruct Hin as [Hi|[]]. inversion Hi; subst. apply W_box; [apply W_prim; gl|le].
    + destruct k; discriminate.
Qed.

Lemma t_demo_wf : @wf_ty demo no_env t_demo.
Proof.
  apply W_struct; [gl| |].
  - repeat (apply FO_cons;
      [ vm_compute; discriminate
      | dv
      | vm_compute; discriminate
      | intros o u Hin; cbn [In] in Hin;
        repeat destruct Hin as [Hin|Hin]; try contradiction; inversion Hin; subst; left; vm_compute; discriminate
      | ]). constructor.
  - intros o t Hin. cbn [In] in Hin.
    repeat destruct Hin as [Hin|Hin]; try contradiction; inversion Hin; subst.
    + apply W_prim. gl.
    + apply t_opt_wf.
    + apply W_vec; [apply W_prim; gl|le].
    + apply W_string. le.
    + apply W_vec; [apply W_prim; gl|le].
Qed.

Ltac rd := vm_compute; reflexivity.
Ltac num := first [ le | dv | (vm_compute; discriminate) | (vm_compute; reflexivity) ].
Ltac vok := unfold vec_ok, valid_ref; ands; num.

Lemma demo_repr : @repr demo no_env canonical demo_mem t_demo 4096 demo_val.
Proof.
  apply R_struct. apply RF_cons; [|apply RF_cons; [|apply RF_cons; [|apply RF_cons; [|apply RF_cons; [|constructor]]]]].
  - apply R_prim; rd.
  - eapply R_enum; [rd|reflexivity|]. apply RF_cons; [|constructor].
    eapply R_box; [rd|unfold valid_ref; ands; num|intros _ H; discriminate|apply R_prim; rd].
  - eapply R_vec; [rd|rd|rd|vok|intros _ H; discriminate|].
    apply RE_cons; [apply R_prim; rd|]. apply RE_cons; [apply R_prim; rd|constructor].
  - eapply R_string; [rd|rd|rd|vok|intros _ H; discriminate|rd].
  - eapply R_vec; [rd|rd|rd|vok|intros _ H; discriminate|constructor].
Qed.

