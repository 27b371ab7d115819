(** * PropReuse: outputs stay valid while the storage is used on (C61).

    The client program [run_uses] and [readable] are in Reuse.v. *)
From Verif Require Import Base Types Storage Serializer Serialize Spec ArithFacts StorageFacts
  StorageHist MemFacts TypeFacts SerFacts SerMain SerRoot Moves StorageProps SerProps PropStorage PropSerialize
  Demo WitnessSerialize Reuse.
From Coq Require Import ZifyBool ZifyNat ZifyN.
Local Open Scope N_scope.

(** ** C61 *)

(** A client uses one storage directly and through any number of serializers of all kinds,
    going on after panics, never clearing it.  At the end everything there was is
    still there, every output is readable, and nothing else than an allocation failure
    or the known fault of an empty push (C13, C48) can have happened. *)
Theorem C61_stays_readable {P : Params} : forall E us w,
  cfg_ok -> alloc_ok -> wf_env E -> storage_ok w -> Forall (use_ok E) us ->
  match run_uses E us w with
  | Ok outs w' =>
      storage_ok w' /\ Forall (readable E w') outs /\
      s_pos (sw_s w) <= s_pos (sw_s w') /\
      forall i, i < s_pos (sw_s w) -> s_buf (sw_s w') i = s_buf (sw_s w) i
  | Abort => alloc_failed
  | UB => exists o w1, In (UOp o) us /\ storage_ok w1 /\ empty_slice_push w1 o
  | Panic _ _ | OutOfFuel => False
  end.
Proof.
  intros E us w C HA HE Hw Hus. pose proof (run_uses_spec E C HA HE us w Hw Hus) as H.
  destruct (run_uses E us w); auto. destruct H as (A & [B1 B2] & D). auto.
Qed.

(** In place: a Complete output is a value at its address in the storage's buffer exactly
    where it was, if the buffer is where it was. *)
Theorem C61_complete_in_place {P : Params} : forall E us w outs w' o,
  cfg_ok -> alloc_ok -> wf_env E -> storage_ok w -> Forall (use_ok E) us ->
  run_uses E us w = Ok outs w' -> In o outs -> o_kind o = Complete -> o_base o = s_ptr (sw_s w') ->
  repr E any_header (out_mem (s_ptr (sw_s w')) w') (o_ty o) (s_ptr (sw_s w') + o_pos o) (o_val o).
Proof.
  intros E us w outs w' o C HA HE Hw Hus Hr Hin Hk Hb.
  pose proof (C61_stays_readable E us w C HA HE Hw Hus) as H. rewrite Hr in H.
  destruct H as (_ & H & _). rewrite Forall_forall in H. destruct (H o Hin) as (_ & _ & H3).
  rewrite <- Hb. auto.
Qed.

(** The demo value with each serializer into one storage, with pushes, a refused reserve and
    shrink_to_fit between: the buffer moves several times. *)
Definition demo_uses : list use :=
  [ USer PtrOffset demo_mem 10 t_demo 4096 demo_val;
    UOp (OPushBytes 100 no_mem);
    USer Complete demo_mem 10 t_demo 4096 demo_val;
    UOp (OReserve 100000);
    USer PureCopy demo_mem 10 t_demo 4096 demo_val;
    UOp OShrink;
    UOp (OPushSlice u64_layout 3 no_mem);
    USer Complete demo_mem 10 t_demo 4096 demo_val ].
Example C61_hypotheses : Forall (@use_ok demo no_env) demo_uses.
Proof.
  assert (Hv : @use_ok demo no_env (USer Complete demo_mem 10 t_demo 4096 demo_val))
    by (split; [exact demo_valid|cbn; lia]).
  unfold demo_uses.
  repeat (constructor; [first [exact Hv | split; [|discriminate]]|]); try constructor.
  all: try exact I.
  all: first [ exact u64_demo | facts | apply lec; vm_compute; reflexivity | idtac ].
Qed.
Example C61_witness :
  match @run_uses demo no_env demo_uses demo_w with
  | Ok outs w =>
      map (fun o => (o_pos o, o_base o)) outs = [(0, 131072); (216, 262144); (328, 262144); (464, 458752)] /\
      s_ptr (sw_s w) = 458752 /\ s_pos (sw_s w) = 576
  | _ => False
  end.
Proof. vm_compute. repeat split. Qed.

(** The documented warning (complete.rs:34-41): after the buffer moved, the Complete output is no value
    at its place in the buffer any more: Box<u64>, then a reserve. *)
Definition box_mem : mem := chunks [(4096, w64 8192); (8192, w64 77)].
Definition t_box : ty := TBox (TPrim u64_layout (fun _ => true)).
Definition box_uses : list use := [ USer Complete box_mem 10 t_box 4096 (VBox (VPrim 77)); UOp (OReserve 100) ].
Theorem C61_moved_counterexample :
  Forall (@use_ok demo no_env) box_uses /\
  exists o w, @run_uses demo no_env box_uses sw_new = Ok [o] w /\ o_kind o = Complete /\
    o_base o <> s_ptr (sw_s w) /\
    forall v, ~ @repr demo no_env any_header (@out_mem (s_ptr (sw_s w)) w) t_box (s_ptr (sw_s w) + o_pos o) v.
Proof.
  assert (Hin : @valid_input demo no_env any_header box_mem t_box 4096 (VBox (VPrim 77))).
  { split; [|split].
    - constructor; [constructor; exact u64_demo|vm_compute; discriminate].
    - vm_compute; discriminate.
    - eapply R_box with (p := 8192); [vm_compute; reflexivity| |exact I|].
      + unfold valid_ref. ands; [discriminate|dv|vm_compute; discriminate].
      + apply R_prim; vm_compute; reflexivity. }
  split.
  { constructor; [split; [exact Hin|cbn; lia]|]. constructor; [|constructor].
    split; [|discriminate]. vm_compute. reflexivity. }
  assert (H : exists o w, @run_uses demo no_env box_uses sw_new = Ok [o] w /\ o_kind o = Complete /\
    o_pos o = 0 /\ o_base o = 65536 /\ s_ptr (sw_s w) = 131072 /\
    @read_word demo (@out_mem 131072 w) 131072 = Some 65544 /\ (@out_mem 131072 w) 65544 = None).
  { destruct (@run_uses demo no_env box_uses sw_new) as [outs w|? ?| | |] eqn:Er.
    2-5: exfalso; vm_compute in Er; discriminate.
    assert (Hq : match @run_uses demo no_env box_uses sw_new with
       | Ok [o] w => o_kind o = Complete /\ o_pos o = 0 /\ o_base o = 65536 /\ s_ptr (sw_s w) = 131072 /\
           @read_word demo (@out_mem 131072 w) 131072 = Some 65544 /\ (@out_mem 131072 w) 65544 = None
       | _ => False end) by (vm_compute; repeat split).
    rewrite Er in Hq. destruct outs as [|o [|]]; try contradiction. exists o, w. split; [reflexivity|exact Hq]. }
  destruct H as (o & w & H1 & H2 & H3 & H4 & H5 & H6 & H7). exists o, w.
  split; [exact H1|]. split; [exact H2|]. split; [rewrite H4, H5; discriminate|].
  intros v Hr. rewrite H3, H5 in Hr. inversion Hr; subst.
  match goal with H : read_word _ _ = Some ?p |- _ => change (131072 + 0) with 131072 in H; rewrite H6 in H; inversion H; subst end.
  match goal with H : repr _ _ _ (TPrim _ _) _ _ |- _ => inversion H; subst end.
  match goal with H : read_int _ _ _ = Some _ |- _ => revert H; unfold read_int end.
  change (N.to_nat (l_size u64_layout)) with 8%nat. cbn [read_bytes]. rewrite H7. discriminate.
Qed.
