(** * PropDepth: how much stack serializing takes (C74), and a recursive type. *)
From Coq Require Import Arith.
From Verif Require Import Base Types Storage Serializer Serialize Spec ArithFacts StorageFacts MemFacts TypeFacts SerProps SerRoot
  PropStorage PropSerialize Demo WitnessSerialize Build PropValues Depth.
Local Open Scope N_scope.

(** The [fuel] of [serialize] is an allowance: [ser_data (S f)] is one call of
    serialize_data, and the calls it makes have the allowance [f].  A call without
    allowance ends in [OutOfFuel]: the stack overflows.

    Serializing [v] needs the allowance [calls E t v], and that is enough. *)
Theorem C74_exact {P : Params} : forall k E m t a v w,
  cfg_ok -> alloc_ok -> wf_env E -> storage_ok w -> valid_input E any_header m t a v ->
  (forall fuel, (calls E t v <= fuel)%nat ->
     serialize k E m fuel t a (from_storage w) = serialize k E m (calls E t v) t a (from_storage w) /\
     serialize k E m fuel t a (from_storage w) <> OutOfFuel) /\
  (forall fuel p z, (fuel < calls E t v)%nat -> serialize k E m fuel t a (from_storage w) <> Ok p z).
Proof.
  intros k E m t a v w C HA HE Hw Hv. pose proof (proj2 (proj2 Hv)) as Hr.
  assert (Heq : forall fuel, (calls E t v <= fuel)%nat ->
            serialize k E m fuel t a (from_storage w) = serialize k E m (calls E t v) t a (from_storage w)).
  { intros fuel Hf. unfold serialize, serialize_value. revert Hf. generalize (from_storage w). intros z Hf.
    apply eqm_bind; [|intros; apply eqm_refl]. apply eqm_svw.
    apply (proj1 (enough k E m HE any_header) t a v Hr fuel Hf). }
  split.
  - intros fuel Hf. split; [apply Heq, Hf|]. rewrite (Heq fuel Hf), <- (Heq (S (vdepth v)) (calls_vdepth E v t)).
    pose proof (C29_nothing_else k E m t a v w (S (vdepth v)) C HA HE Hw Hv ltac:(lia)) as H.
    intros Ho. rewrite Ho in H. exact H.
  - intros fuel p z Hf. unfold serialize, serialize_value. apply fails_1. apply fails_svw.
    apply (proj1 (needed k E m HE any_header) t a v Hr fuel Hf).
Qed.

(** It is bounded by the nesting of the type, however long the Vecs and arrays are,
    unless the type is recursive. *)
Theorem C74_type_bound {P : Params} : forall k E m t a v w n,
  cfg_ok -> alloc_ok -> wf_env E -> storage_ok w -> valid_input E any_header m t a v ->
  nests E t n -> serialize k E m n t a (from_storage w) <> OutOfFuel.
Proof.
  intros k E m t a v w n C HA HE Hw Hv Hn.
  apply (C74_exact k E m t a v w C HA HE Hw Hv). apply calls_nests; assumption.
Qed.

(** ** struct Node { x: u64, next: Option<Box<Node>> } *)
Definition node_def : ty := TStruct (mkLayout 16 8)
  [(0, t_u64); (8, TEnum (mkLayout 8 8) (DNiche 0 8 1 [(0, 0%nat)]) [[]; [(0, TBox (TNamed 0))]])].
Definition node_env : tenv := fun id => match id with O => Some node_def | _ => None end.
Definition t_node : ty := TNamed 0.
Fixpoint chain (n : nat) : val :=
  match n with
  | O => VStruct [VPrim 7; VEnum 0 []]
  | S n' => VStruct [VPrim (N.of_nat n mod 256); VEnum 1 [VBox (chain n')]]
  end.

Lemma node_wf : @wf_ty demo node_env t_node.
Proof. eapply W_named. reflexivity. Qed.
Lemma node_env_wf : @wf_env demo node_env.
Proof.
  intros [|id] d H; [|discriminate]. injection H as <-. split; [|exact Logic.I].
  apply W_struct; [gl| |].
  - repeat (apply FO_cons;
      [ vm_compute; discriminate
      | dv
      | vm_compute; discriminate
      | intros o u Hin; cbn [In] in Hin;
        repeat destruct Hin as [Hin|Hin]; try contradiction; inversion Hin; subst; left; vm_compute; discriminate
      | ]). constructor.
  - intros o t Hin. cbn [In] in Hin.
    repeat destruct Hin as [Hin|Hin]; try contradiction; inversion Hin; subst; [apply W_prim; gl|].
    apply W_enum; [gl| | |].
    + eapply (DO_niche (P := demo) node_env _ _ 0 8 1%nat [(0,0%nat)] [(0, TBox (TNamed 0))] 0 (TBox (TNamed 0)) 0).
      * cbn. lia.
      * intros n k [H|[]]. inversion H; subst. discriminate.
      * intros k gs H Hk o t Hi. destruct k as [|[|k]]; cbn in H.
        -- inversion H; subst. destruct Hi.
        -- congruence.
        -- destruct k; discriminate.
      * reflexivity.
      * left. reflexivity.
      * reflexivity.
      * apply (NV_box (P := demo)). intros n Hn k [H|[]]. inversion H; subst. congruence.
    + intros k fs H. destruct k as [|[|k]]; cbn in H.
      * inversion H; subst. constructor.
      * inversion H; subst. constructor; [vm_compute; discriminate|exists 0; reflexivity|vm_compute; discriminate|intros o u []|constructor].
      * destruct k; discriminate.
    + intros k fs o t H Hi. destruct k as [|[|k]]; cbn in H.
      * inversion H; subst. destruct Hi.
      * inversion H; subst. destruct Hi as [Hi|[]]. inversion Hi; subst. apply W_box; [eapply W_named; reflexivity|le].
      * destruct k; discriminate.
Qed.

Lemma chain_has_ty n : @has_ty demo node_env t_node (chain n).
Proof.
  induction n as [|n IH]; (eapply HT_named; [reflexivity|]); apply HT_struct.
  - apply FT_cons; [apply HT_prim; [reflexivity|vm_compute; reflexivity]|]. apply FT_cons; [|constructor].
    eapply HT_enum; [reflexivity| |constructor]. right. exists 0. split; [vm_compute; reflexivity|reflexivity].
  - apply FT_cons; [apply HT_prim; [reflexivity|]|].
    { change (256 ^ l_size u64_layout) with 18446744073709551616. pose proof (N.mod_lt (N.of_nat (S n)) 256 ltac:(lia)). lia. }
    apply FT_cons; [|constructor]. eapply HT_enum; [reflexivity|left; reflexivity|].
    apply FT_cons; [|constructor]. apply HT_box. exact IH.
Qed.

(** A list of [n] more nodes takes three more calls per node (Node, Option, Box):
    there is no bound for the type. *)
Theorem C74_recursive : forall n,
  @has_ty demo node_env t_node (chain n) /\ @calls demo node_env t_node (chain n) = (3 * n + 2)%nat.
Proof.
  intros n. split; [apply chain_has_ty|]. induction n as [|n IH]; [reflexivity|].
  rewrite (calls_named (P := demo) node_env node_env_wf 0 node_def _ eq_refl).
  cbn [chain]. rewrite (calls_struct (P := demo) node_env node_def _ _ _ eq_refl). cbn [calls_fields].
  rewrite (calls_enum (P := demo) node_env (TEnum (mkLayout 8 8) (DNiche 0 8 1 [(0, 0%nat)]) [[]; [(0, TBox (TNamed 0))]])
     _ _ _ 1%nat [(0, TBox (TNamed 0))] _ eq_refl eq_refl). cbn [calls_fields].
  assert (Hb : @calls demo node_env (TBox (TNamed 0)) (VBox (chain n)) = S (@calls demo node_env (TNamed 0) (chain n))) by reflexivity.
  assert (Hp : forall x, @calls demo node_env t_u64 (VPrim x) = 1%nat) by reflexivity.
  rewrite Hb, Hp. unfold t_node in IH. rewrite IH. lia.
Qed.
Theorem C74_no_bound : ~ exists n, @nests node_env t_node n.
Proof.
  intros [n Hn]. pose proof (calls_nests (P := demo) node_env node_env_wf n t_node (chain n) Hn) as H.
  rewrite (proj2 (C74_recursive n)) in H. lia.
Qed.

(** A list of three nodes, in memory, meets the hypotheses; 8 nested calls do, 7 do not. *)
Theorem C74_witness :
  @nests no_env t_demo 4 /\
  (let (m, a) := @build demo node_env 0 t_node (chain 2) in
   @valid_input demo node_env any_header m t_node a (chain 2) /\
   forall k,
   match @serialize demo k node_env m 8 t_node a (from_storage demo_w) with
   | Ok p z => s_pos (sw_s (z_sw z)) = 48 /\
               @decode_root demo node_env (@out_mem 0 (z_sw z)) 9 t_node p = Some (chain 2)
   | _ => False
   end /\
   @serialize demo k node_env m 7 t_node a (from_storage demo_w) = OutOfFuel).
Proof.
  split.
  { unfold t_demo, t_opt. apply Ne_struct. intros o t Hin. cbn [In] in Hin.
    repeat destruct Hin as [Hin|Hin]; try contradiction; inversion Hin; subst; try constructor; try constructor.
    intros fs o' t' [<-|[<-|[]]] Hi; [destruct Hi|]. destruct Hi as [Hi|[]]. inversion Hi; subst. repeat constructor. }
  pose proof (C71_every_value (P := demo) node_env t_node (chain 2) demo_cfg node_env_wf node_wf (chain_has_ty 2) ltac:(vm_compute; discriminate)) as HV.
  assert (Ha : snd (@build demo node_env 0 t_node (chain 2)) = 16) by (vm_compute; reflexivity).
  destruct (@build demo node_env 0 t_node (chain 2)) as [m a] eqn:Hb. cbn in Ha. subst a.
  assert (Hm : m = fst (@build demo node_env 0 t_node (chain 2))) by (rewrite Hb; reflexivity). clear Hb. subst m.
  split; [exact (proj1 (proj2 (proj2 (proj2 HV))))|].
  intros k. destruct k; vm_compute; repeat split; reflexivity.
Qed.
