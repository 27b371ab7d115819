(** * PropRecord: C76 — what CompleteSerializer remembers while it serializes.

    [owned E t v] (Spec.v): the allocations the value [v] owns, itself excluded.
    [remembered] (Record.v): the positions kept for correction at the end, in groups by buffer address. *)
From Coq Require Import Arith Lia.
From Verif Require Import Base Types Storage Serializer Serialize Spec ArithFacts
  StorageFacts StorageHist Frame MemFacts TypeFacts SerFacts SerMain SerRoot SerProps Cost Record
  PropStorage PropSerialize PropCost PropUse PropEncode Demo WitnessSerialize.
From Coq Require Import ZifyBool ZifyNat ZifyN.
Local Open Scope N_scope.

(** How many allocations the values own, themselves excluded. *)
Fixpoint pointers {P : Params} (E : tenv) (xs : list (ty * N * val)) : nat :=
  match xs with
  | [] => 0
  | (t, _, v) :: xs' => length (owned E t v) + pointers E xs'
  end.

(** One position for each allocation that the values own, no more; the other serializers
    remember nothing. *)
Theorem C76_count {P : Params} : forall k E m (xs : list (ty * N * val)) w fuel ps z,
  wf_env E ->
  Forall (fun '(t, a, v) => repr E any_header m t a v /\ (vdepth v < fuel)%nat) xs ->
  serialize_all k E m fuel (map fst xs) (from_storage w) = Ok ps z ->
  length (remembered (z_ptrs z)) = match k with Complete => pointers E xs | _ => 0%nat end.
Proof.
  intros k E m xs w fuel ps z HE Hxs Hs. pose proof (record_after k E m any_header HE fuel xs w ps z Hxs Hs) as H.
  assert (Ho : owned_all E xs = pointers E xs).
  { clear. induction xs as [|[[t a] v] xs IH]; [reflexivity|]. cbn [owned_all fold_right pointers fst snd]. f_equal. exact IH. }
  destruct k; try (rewrite H; reflexivity). rewrite <- Ho. apply H.
Qed.

(** The positions are kept in groups, a new one being begun only if the buffer has moved: there are no
    more past groups than allocator calls, and so never more than 8 * pW + 1. *)
Theorem C76_groups {P : Params} : forall E m (xs : list (ty * N * val)) w fuel ps z,
  cfg_ok -> alloc_ok -> wf_env E -> storage_ok w ->
  Forall (fun '(t, a, v) => valid_input E any_header m t a v /\ (vdepth v < fuel)%nat) xs ->
  serialize_all Complete E m fuel (map fst xs) (from_storage w) = Ok ps z ->
  (length (pt_past (z_ptrs z)) + sw_calls w <= sw_calls (z_sw z))%nat /\
  N.of_nat (length (pt_past (z_ptrs z))) <= 8 * pW + 1.
Proof.
  intros E m xs w fuel ps z C HA HE Hw Hxs Hr.
  assert (Hg : (length (pt_past (z_ptrs z)) + sw_calls w <= sw_calls (z_sw z))%nat).
  { refine (proj2 (record_after Complete E m any_header HE fuel xs w ps z _ Hr)).
    eapply Forall_impl; [|exact Hxs]. intros [[t a] v] ((_ & _ & D) & F). auto. }
  split; [exact Hg|].
  pose proof (C59_storage_use Complete E m xs w fuel C HA HE Hw Hxs) as H. cbv zeta in H. rewrite Hr in H.
  destruct H as (rs & w' & Hrun & (A1 & A2 & A3 & A4 & A5)).
  set (al := all_allocations E (map (fun '(t, a, v) => (t, v)) xs)) in *.
  assert (Hgood : Forall (fun x => good_layout (fst x)) al).
  { subst al. unfold all_allocations. apply Forall_flat_map. apply Forall_map.
    eapply Forall_impl; [|exact Hxs]. intros [[t a] v] (Hx & _).
    apply (allocations_good C); [exact HE|apply Hx]. }
  assert (Hlen : exists f, fpushes al (frame_of w) = FOk f).
  { assert (Hxs' : Forall (fun '(t, a, v) => input_ok E m any_header fuel t a v) xs).
    { eapply Forall_impl; [|exact Hxs]. intros [[t a] v] ((A & B & D) & F). unfold input_ok. auto. }
    pose proof (serialize_all_spec C HA E HE Complete m any_header any_header (transfers_any Complete) fuel xs w Hw Hxs') as H.
    change (map it_in xs) with (map fst xs) in H. rewrite Hr in H.
    destruct H as (_ & _ & _ & _ & _ & _ & H & _).
    replace (map it_tv xs) with (map (fun '(t, a, v) => (t, v)) xs) in H
      by (apply map_ext; intros [[t a] v]; reflexivity).
    eexists. exact H. }
  assert (Hval : Forall op_valid (push_ops al)).
  { destruct Hlen as [f Hf]. clear Hrun. revert f Hf. generalize (frame_of w).
    induction Hgood as [|[l n] al Hl Hgood IH]; intros f0 f Hf; [constructor|].
    cbn [fpushes] in Hf. destruct (fpush f0 l n) as [f1| | |] eqn:Ef; try discriminate.
    constructor; [|eapply IH; exact Hf]. split; [exact Hl|]. cbn [fst snd].
    unfold fpush in Ef. destruct (imax <? l_size l * n) eqn:El; [|lia].
    rewrite Bool.orb_true_r in Ef. discriminate. }
  assert (Hns : ~ In OShrink (push_ops al)).
  { unfold push_ops. intros Hin. apply in_map_iff in Hin. destruct Hin as (x & Hx & _). discriminate. }
  pose proof (C37_growth (push_ops al) w w' C HA Hw Hval Hns (run_seq_ops _ _ _ _ Hrun)) as Hc.
  rewrite A4 in Hc. lia.
Qed.

(** The three values of PropEncode own four allocations; the storage (capacity 96) grows twice, each time
    after a pointer has been written. *)
Theorem C76_witness :
  @pointers demo no_env PropEncode.demo_items = 4%nat /\
  match @serialize_all demo Complete no_env demo_mem 10 (inputs PropEncode.demo_items) (from_storage demo_w) with
  | Ok _ z => (remembered (z_ptrs z), map pg_pos (pt_past (z_ptrs z)), sw_calls (z_sw z), sw_calls demo_w)
      = ([8; 24; 40; 120], [[8]; [24; 40]], 3%nat, 1%nat)
  | _ => False
  end.
Proof. vm_compute. repeat split. Qed.
