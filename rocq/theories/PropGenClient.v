(** * PropGenClient: property C89 (hand-written Serialize implementations over any storage). *)
From Verif Require Import Base Types Storage Serializer Serialize Spec ArithFacts StorageFacts StorageHist
  MemFacts TypeFacts SerFacts SerMain SerValue SerRoot SerProps PropStorage Demo WitnessSerialize
  Client ClientSpec ClientFacts PropClient
  GenStorage GenSpec GenFacts PropGen GenSerializer GenSerSpec GenSerAV GenSerFacts GenSerRoot PropGenSer
  GenClient GenClientSpec GenClientFacts.
From Coq Require Import ZifyBool ZifyNat ZifyN.
Local Open Scope N_scope.

(** Where the output is read: a complete output at the storage's own address, the others from 0. *)
Definition g_read_base {St} (R : ra_impl St) (k : kind) (s : St) : N :=
  match k with Complete => r_as_ptr R s | _ => 0 end.

(** Any hand-written implementation that keeps to the rules of [steps_ok] and makes no calls on the storage
    itself, with a serializer of any kind over any storage that keeps to its contract: the
    output has every value's image (ClientSpec.v), one after the other, on top of what
    was stored before; the only panic is one of the storage's reserve; no undefined behaviour. *)
Theorem C89_custom_impls_any_storage {P : Params} {St} (R : ra_impl St) inv contents empties :
  cfg_ok -> keeps_contract (r_st R) inv contents empties -> reserve_keeps_pos (r_st R) inv ->
  forall k E m, storage_for k R inv contents -> wf_env E ->
  forall fuel rs s, ready (r_st R) inv s ->
  Forall (root_in E m fuel) rs -> Forall root_plain rs ->
  match g_client_all R k E m fuel rs (g_from_storage s) with
  | Ok ps z =>
      let s' := gz_st z in
      let B := g_read_base R k s' in
      ps = roots_pos E (i_pos (r_st R) s) rs /\
      i_pos (r_st R) s' = roots_end E (i_pos (r_st R) s) rs /\
      ready (r_st R) inv s' /\
      same_below (i_pos (r_st R) s) (contents s') (contents s) /\
      regions k E m (g_out_mem (r_st R) contents B s') B (i_pos (r_st R) s) rs
  | Panic e z =>
      refused_within (r_st R) inv (i_pos (r_st R) s) (roots_end E (i_pos (r_st R) s) rs) e /\
      ready (r_st R) inv (gz_st z) /\
      i_pos (r_st R) s <= i_pos (r_st R) (gz_st z) /\
      same_below (i_pos (r_st R) s) (contents (gz_st z)) (contents s)
  | Abort => True
  | UB | OutOfFuel => False
  end.
Proof.
  intros C K KP k E m HS HE fuel rs s Hr Hall Hpl.
  destruct (plain_roots empties rs Hpl) as [H1 H2].
  exact (g_client_all_spec (UP := False) R C inv contents empties K KP E HE m fuel k HS rs s (fun x => x) Hr Hall H1 H2).
Qed.

(** serialize(&value): one value. *)
Theorem C89_custom_impl_any_storage {P : Params} {St} (R : ra_impl St) inv contents empties :
  cfg_ok -> keeps_contract (r_st R) inv contents empties -> reserve_keeps_pos (r_st R) inv ->
  forall k E m, storage_for k R inv contents -> wf_env E ->
  forall fuel l a ss s, ready (r_st R) inv s ->
  good_layout l -> 0 < l_size l -> a + l_size l <= umod ->
  steps_ok E m fuel (l_size l) (l_align l) a ss -> forallb plain ss = true ->
  match g_client_serialize R k E m fuel l a ss (g_from_storage s) with
  | Ok p z =>
      let s' := gz_st z in
      let B := g_read_base R k s' in
      p = push_start (i_pos (r_st R) s) l /\
      i_pos (r_st R) s' = steps_end E (push_end (i_pos (r_st R) s) l 1) ss /\
      ready (r_st R) inv s' /\
      same_below (i_pos (r_st R) s) (contents s') (contents s) /\
      region k E m (g_out_mem (r_st R) contents B s') B p a (l_size l) (push_end (i_pos (r_st R) s) l 1) ss
  | Panic e z =>
      refused_within (r_st R) inv (i_pos (r_st R) s) (steps_end E (push_end (i_pos (r_st R) s) l 1) ss) e /\
      ready (r_st R) inv (gz_st z) /\
      i_pos (r_st R) s <= i_pos (r_st R) (gz_st z) /\
      same_below (i_pos (r_st R) s) (contents (gz_st z)) (contents s)
  | Abort => True
  | UB | OutOfFuel => False
  end.
Proof.
  intros C K KP k E m HS HE fuel l a ss s Hr Hl Hsz Ha Hss Hpl.
  pose proof (C89_custom_impls_any_storage R inv contents empties C K KP k E m HS HE fuel [(l, a, ss)] s Hr) as HH.
  specialize (HH ltac:(constructor; [cbn; auto|constructor]) ltac:(constructor; [exact Hpl|constructor])).
  unfold g_client_all, g_client_serialize in *. cbn [g_client_values] in HH. unfold bind, ret in *.
  destruct (g_serialize_value_with R k (slice_at m l a 1) (g_run_steps R k E m fuel a ss) (g_from_storage s)) as [p z1|e z1| | |]; auto.
  destruct (g_finalize R k z1) as [u z2|e z2| | |]; auto.
  destruct HH as (Q1 & Q2 & Q3 & Q4 & Q5). cbn [roots_pos roots_end regions] in *. inversion Q1; subst.
  cbv zeta. ands; auto. apply Q5.
Qed.

(** Over AlignedVec these are the implementations of Client.v (so C47 and the above speak of the same code). *)
Section Same.
Context {P : Params}.
Variable k : kind.
Variable E : tenv.
Variable m : mem.
Variable fuel : nat.

Lemma sim_store o : sim (g_store_call aligned_vec_ra o) (store_call o).
Proof.
  intros z. unfold g_store_call, store_call. cbn [aligned_vec_ra r_st]. rewrite av_run_op. destruct z as [w pm pt].
  cbn [gz_st to_zs z_sw]. destruct (run_op o w); reflexivity.
Qed.

Lemma sim_run_step : forall s a, sim (g_run_step aligned_vec_ra k E m fuel a s) (run_step k E m fuel a s).
Proof.
  fix IH 1. intros s a.
  assert (IHs : forall ss a, sim (g_run_steps aligned_vec_ra k E m fuel a ss) (run_steps k E m fuel a ss)).
  { clear s a. fix IHs 1. intros [|s ss] a; [apply sim_ret|]. cbn [g_run_steps run_steps]. apply sim_bind; [apply IH|].
    intros _. apply IHs. }
  destruct s as [off l tp n body|off l tp n|l tp n|off l data|off t v|o|].
  - rewrite g_run_push, run_push.
    apply sim_bind; [apply sim_afro|intros ad]. apply sim_bind; [|intros _; apply sim_ret].
    apply sim_pps. apply IHs.
  - cbn [g_run_step run_step]. apply sim_bind; [apply sim_afro|intros ad].
    apply sim_bind; [apply sim_ser_push|intros _; apply sim_ret].
  - cbn [g_run_step run_step]. apply sim_bind; [apply sim_push|intros _; apply sim_ret].
  - cbn [g_run_step run_step]. apply sim_overwrite_with. apply sim_bind; [apply sim_afro|intros ad; apply sim_overwrite].
  - cbn [g_run_step run_step]. apply sim_ser_data.
  - apply sim_store.
  - intros z. reflexivity.
Qed.

Lemma sim_run_steps : forall ss a, sim (g_run_steps aligned_vec_ra k E m fuel a ss) (run_steps k E m fuel a ss).
Proof.
  induction ss as [|s ss IH]; intros a; [apply sim_ret|]. cbn [g_run_steps run_steps].
  apply sim_bind; [apply sim_run_step|auto].
Qed.

Lemma sim_svw l a ss : sim (g_serialize_value_with aligned_vec_ra k (slice_at m l a 1) (g_run_steps aligned_vec_ra k E m fuel a ss))
  (serialize_value_with k (slice_at m l a 1) (run_steps k E m fuel a ss)).
Proof.
  pose proof (sim_run_steps ss a) as Hr.
  unfold g_serialize_value_with, serialize_value_with, push_raw, g_push_raw_slice, push_raw_slice.
  destruct k; repeat (apply sim_bind; [first [apply sim_push | apply sim_set_map | exact Hr]|intros ?]); apply sim_ret.
Qed.

Theorem C89_aligned_vec l a ss s :
  match g_client_serialize aligned_vec_ra k E m fuel l a ss (g_from_storage s) with
  | Ok p z => client_serialize k E m fuel l a ss (from_storage s) = Ok p (to_zs z)
  | Panic e z => client_serialize k E m fuel l a ss (from_storage s) = Panic e (to_zs z)
  | Abort => client_serialize k E m fuel l a ss (from_storage s) = Abort
  | UB => client_serialize k E m fuel l a ss (from_storage s) = UB
  | OutOfFuel => client_serialize k E m fuel l a ss (from_storage s) = OutOfFuel
  end.
Proof.
  assert (HS : sim (g_client_serialize aligned_vec_ra k E m fuel l a ss) (client_serialize k E m fuel l a ss)).
  { unfold g_client_serialize, client_serialize.
    apply sim_bind; [apply sim_svw|]. intros p. apply sim_bind; [apply sim_finalize|]. intros _. apply sim_ret. }
  specialize (HS (g_from_storage s)).
  change (to_zs (g_from_storage s)) with (from_storage s) in HS.
  destruct (g_client_serialize aligned_vec_ra k E m fuel l a ss (g_from_storage s)); symmetry; exact HS.
Qed.
End Same.

(** A concrete case, over a storage that is not AlignedVec and whose block moves while a value is being
    serialized: two values of the demo struct, each with an implementation that follows the box and replaces the number
    in it, delegates to the Vec<u16>, follows the string's pointer, pushes a zero-sized slice for the last
    word, and appends a copy of the numbers. *)
Definition gc_steps : list step :=
  [ SPush 8 u64_layout 8192 1 [SOver 0 u64_layout (bytes_src (w64 99))];
    SField 16 (TVec CPL t_u16) (VVec [VPrim 258; VPrim 772]);
    SPushPlain 40 (mkLayout 1 1) 8224 2;
    SPushPlain 80 (mkLayout 0 2) 8208 7;
    SRaw (mkLayout 2 2) 8208 2 ].
Definition gc_values : list (layout * N * list step) :=
  [(mkLayout 88 8, 4096, gc_steps); (mkLayout 88 8, 4096, gc_steps)].

Lemma C89_steps_ok : @steps_ok demo no_env demo_mem 10 88 8 4096 gc_steps.
Proof.
  assert (Hs : forall l tp n, @good_layout demo l -> l_size l <= 1000 -> 0 < n <= 1000 -> tp <= 10000 ->
            @slice_ok demo l tp n).
  { intros l tp n H1 H2 H3 H4. unfold slice_ok. change (@imax demo) with 9223372036854775807.
    change (@umod demo) with 18446744073709551616. ands; auto; try lia; nia. }
  unfold gc_steps.
  constructor; [|apart|].
  { apply OK_push; [le|dv|dv|apply Hs; [gl|cbn; lia|lia|lia]|].
    constructor; [|intros s' i []|constructor].
    apply OK_over; [gl|cbn; lia|le|dv|dv]. }
  constructor; [|apart|].
  { apply OK_field; [apply W_vec; [apply W_prim; gl|le]| |cbn; lia|le|dv|dv].
    eapply R_vec; [rd|rd|rd|vok|exact I|].
    apply RE_cons; [apply R_prim; rd|]. apply RE_cons; [apply R_prim; rd|constructor]. }
  constructor; [|apart|].
  { apply OK_plain; [le|dv|dv|apply Hs; [gl|cbn; lia|lia|lia]]. }
  constructor; [|apart|].
  { apply OK_plain; [le|dv|dv|apply Hs; [apply good_layoutb_ok; vm_compute; reflexivity|cbn; lia|lia|lia]]. }
  constructor; [|apart|constructor].
  apply OK_raw. apply Hs; [gl|cbn; lia|lia|lia].
Qed.

Theorem C89_witness :
  @keeps_contract demo _ (r_st gs_storage) (fixed_inv 4096) fx_buf true /\
  @reserve_keeps_pos demo _ (r_st gs_storage) (fixed_inv 4096) /\
  (forall k, @storage_for demo _ k gs_storage (fixed_inv 4096) fx_buf) /\
  @ready demo _ (r_st gs_storage) (fixed_inv 4096) (mkFixed 8 no_mem) /\
  Forall (@root_in demo no_env demo_mem 10) gc_values /\ Forall root_plain gc_values /\
  r_as_ptr gs_storage (mkFixed 8 no_mem) = 65536 /\
  (forall k, match @g_client_all demo _ gs_storage k no_env demo_mem 10 gc_values (g_from_storage (mkFixed 8 no_mem)) with
   | Ok ps z => ps = [8; 128] /\ fx_pos (gz_st z) = 248 /\
       let rd i := @read_word demo (fx_buf (gz_st z)) i in
       map rd [16; 32; 48; 88; 96; 136; 152; 208] =
       let b := r_as_ptr gs_storage (gz_st z) in
       match k with
       | Complete => [Some (b + 96); Some (b + 104); Some (b + 112); Some b; Some 99; Some (b + 216); Some (b + 224); Some b]
       | PtrOffset => [Some 96; Some 104; Some 112; Some 0; Some 77; Some 216; Some 224; Some 0]
       | _ => [Some 8192; Some 8208; Some 8224; Some 3; Some 77; Some 8192; Some 8208; Some 3]
       end
   | _ => False end).
Proof.
  pose proof any_storage_serialize_witness as (W1 & W2 & W3 & W4 & _ & W6 & _).
  split; [exact W1|]. split; [exact W2|]. split; [exact W3|]. split; [exact W4|].
  split; [|split; [|split; [exact W6|]]].
  - assert (Hr : @root_in demo no_env demo_mem 10 (mkLayout 88 8, 4096, gc_steps)).
    { cbn [root_in]. split; [gl|]. split; [cbn; lia|]. split; [le|]. exact C89_steps_ok. }
    constructor; [exact Hr|]. constructor; [exact Hr|constructor].
  - repeat constructor.
  - intros k; destruct k; vm_compute; repeat split; reflexivity.
Qed.
