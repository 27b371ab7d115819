(** * PropResume: catching a panic and going on with the same serializer (C57). *)
From Verif Require Import Base Types Storage Serializer Serialize Spec ArithFacts StorageFacts StorageHist MemFacts TypeFacts
  SerFacts SerMain SerValue UserPanic SerRoot SerProps Client ClientSpec ClientFacts PropClient.
From Coq Require Import ZifyBool ZifyNat ZifyN.
Local Open Scope N_scope.

Lemma root_end_ge {P : Params} (C : cfg_ok) E m fuel b l a ss : root_in E m fuel (l, a, ss) ->
  b + l_size l <= steps_end E (push_end b l 1) ss.
Proof.
  intros (X1 & X2 & X3 & X4).
  rewrite <- (steps_allocs_end C E m fuel _ _ _ _ X4) by apply push_end_VA.
  pose proof (push_start_ge C b l (proj1 X1)). pose proof (push_end_ge C b l 1).
  pose proof (end_pos_ge C (push_end b l 1) (flat_map (step_allocs E) ss)). lia.
Qed.
Lemma attempts_le {P : Params} (C : cfg_ok) k E m fuel M B b rs outs e :
  Forall (root_in E m fuel) rs -> attempts k E m M B b rs outs e -> b <= e.
Proof.
  intros Hrs H.
  induction H as [b|b l a ss rs outs e Hr Hm Ha IH|b l a ss rs outs e b' Hr Hb Ha IH]; try lia; inversion Hrs; subst.
  - pose proof (root_end_ge C E m fuel b l a ss ltac:(assumption)). specialize (IH ltac:(assumption)). lia.
  - specialize (IH ltac:(assumption)). lia.
Qed.
Lemma attempts_empty {P : Params} (C : cfg_ok) k E m fuel M B M' B' b rs outs e :
  Forall (root_in E m fuel) rs -> attempts k E m M B b rs outs e -> e = 0 -> attempts k E m M' B' b rs outs e.
Proof.
  intros Hrs H He.
  induction H as [b|b l a ss rs outs e Hr Hm Ha IH|b l a ss rs outs e b' Hr Hb Ha IH].
  - constructor.
  - exfalso. inversion Hrs as [|? ? Hx Hxs]; subst.
    pose proof (attempts_le C _ _ _ _ _ _ _ _ _ _ Hxs Ha) as Hle.
    pose proof (root_end_ge C E m fuel b l a ss Hx). destruct Hx as (X1 & X2 & _). lia.
  - inversion Hrs; subst. eapply A_none; eauto.
Qed.

(** The session, the output being in any memory [M], at its base address. *)
Lemma session_done {P : Params} : forall k E m fuel rs w,
  cfg_ok -> alloc_ok -> wf_env E -> storage_ok w ->
  Forall (root_in E m fuel) rs ->
  match session k E m fuel rs (from_storage w) with
  | Ok outs z =>
      let w' := z_sw z in
      (forall M, (forall i, i < s_pos (sw_s w') -> M (read_base k w' + i) = s_buf (sw_s w') i) ->
         attempts k E m M (read_base k w') (s_pos (sw_s w)) rs outs (s_pos (sw_s w'))) /\
      storage_ok w' /\ extends w w' /\
      (forall i, i < s_pos (sw_s w) -> s_buf (sw_s w') i = s_buf (sw_s w) i)
  | Abort => alloc_failed
  | Panic _ _ | UB | OutOfFuel => False
  end.
Proof.
  intros k E m fuel rs w C HA HE Hok Hrs.
  pose proof (c_umod C) as Hum. pose proof (c_sum C) as Hsum. pose proof (c_SA_pos C) as HSA.
  pose proof (pW_vals (c_machine C)) as HpW.
  pose proof (from_storage_inv k w Hok) as Hz.
  pose proof (attempts_done C HA E HE k m fuel rs (from_storage w) [] Hrs Hz) as HV.
  unfold session, bind.
  destruct (attempt_all k E m fuel rs (from_storage w)) as [outs z1|e z1| | |]; auto.
  cbn [app from_storage z_sw] in HV. destruct HV as (G & V1 & V2 & V3 & V4 & V5 & V6).
  pose proof (zinv_ok _ _ _ V1) as Hok1.
  pose proof (ok_pos_le _ Hok1) as Hple.
  assert (Hne : k = Complete -> 0 < s_cap (sw_s (z_sw z1)) \/ G = []).
  { intros _. destruct G as [|[q t] G]; [auto|left].
    destruct (proj1 (proj2 V1) q t (or_introl eq_refl)) as (_ & Hq & _). lia. }
  destruct (finalize_eq C k z1 G V1 Hne) as (z' & -> & Z1 & Z2 & Z3 & Z4 & Z5 & Z6 & Z7).
  cbn [ret]. cbn zeta. ands; auto.
  - intros M HM. assert (Hb : read_base k (z_sw z') = final_base k z1).
    { unfold read_base, final_base. rewrite Z3. reflexivity. }
    rewrite Hb in HM |- *. rewrite Z1 in HM |- *.
    destruct (N.eq_dec (s_cap (sw_s (z_sw z1))) 0) as [Hc0|Hc0].
    + (* nothing was ever allocated *)
      assert (G = []) as ->.
      { destruct G as [|[q t] G]; [auto|].
        destruct (proj1 (proj2 V1) q t (or_introl eq_refl)) as (_ & Hq & _). lia. }
      assert (Hp0 : s_pos (sw_s (z_sw z1)) = 0) by lia.
      eapply (attempts_empty C); [exact Hrs| |exact Hp0].
      apply (V6 0 (fun i => overlay [] (s_buf (sw_s (z_sw z1))) 0 i)); [apply N.divide_0_r|lia|].
      intros i [[]|Hi]. rewrite N.add_0_l. reflexivity.
    + destruct Hok1 as (O1 & O2 & O3 & O4 & O5 & O6). destruct (O6 ltac:(lia)) as (P1 & P2 & P3).
      apply V6.
      * unfold final_base. destruct k; try apply N.divide_0_r.
        eapply N.divide_trans; [apply (c_MVA_dvd_SA C)|exact P2].
      * unfold final_base. destruct k; lia.
      * intros i [[]|Hi]. rewrite HM by lia. apply Z7.
  - eapply extends_trans; [eassumption|]. apply extends_same; congruence.
  - intros i Hi. rewrite Z7. rewrite overlay_none; [apply V4; exact Hi|].
    intros q t Hq. pose proof (V3 q t Hq). unfold covers; cbn. lia.
Qed.

(** A client serializes any values, with any hand-written implementations that keep to the
    rules and may panic at any point, one after the other with the same serializer, catching
    every panic (its own and capacity panics), and then finalizes.  There is no undefined
    behaviour and no further panic; every call that returned did so with the next position for
    its value, and has its whole image in the final output, whatever panicked before
    or after it; a call panics only if its implementation does or the output does not fit;
    everything in the storage before the session is kept. *)
Theorem C57_resume {P : Params} : forall k E m fuel rs w,
  cfg_ok -> alloc_ok -> wf_env E -> storage_ok w ->
  Forall (root_in E m fuel) rs ->
  match session k E m fuel rs (from_storage w) with
  | Ok outs z =>
      let w' := z_sw z in
      attempts k E m (out_mem (read_base k w') w') (read_base k w')
        (s_pos (sw_s w)) rs outs (s_pos (sw_s w')) /\
      storage_ok w' /\ extends w w' /\
      (forall i, i < s_pos (sw_s w) -> s_buf (sw_s w') i = s_buf (sw_s w) i)
  | Abort => alloc_failed
  | Panic _ _ | UB | OutOfFuel => False
  end.
Proof.
  intros k E m fuel rs w C HA HE Hok Hrs.
  pose proof (session_done k E m fuel rs w C HA HE Hok Hrs) as H.
  destruct (session k E m fuel rs (from_storage w)) as [outs z|e z| | |]; auto.
  cbv zeta in *. destruct H as (H1 & H2 & H3 & H4). ands; auto. apply H1.
  intros i Hi. unfold out_mem.
  rewrite (proj2 (N.leb_le _ (read_base k (z_sw z) + i))) by lia.
  rewrite (proj2 (N.ltb_lt (read_base k (z_sw z) + i) _)) by lia.
  cbn [andb]. f_equal. lia.
Qed.

(** A concrete session: the first implementation panics in the middle of processing its box,
    the second is complete, the third pushes more bytes than can ever fit, the last is complete
    again. *)
From Verif Require Import PropStorage PropSerialize Demo WitnessSerialize.
Definition demo_panics : list step :=
  [ SField 16 (TVec CPL t_u16) (VVec [VPrim 258; VPrim 772]);
    SPush 8 u64_layout 8192 1 [SOver 0 u64_layout (bytes_src (w64 99)); SPanic];
    SPushPlain 40 (mkLayout 1 1) 8224 2 ].
Definition demo_huge : list step :=
  [ SPushPlain 8 u64_layout 8192 1; SRaw (mkLayout 1 1) 4096 9223372036854775807 ].
Definition demo_roots : list (layout * N * list step) :=
  [ (mkLayout 88 8, 4096, demo_panics); (mkLayout 88 8, 4096, demo_steps);
    (mkLayout 88 8, 4096, demo_huge); (mkLayout 16 8, 4136, [SPushPlain 0 (mkLayout 1 1) 8224 2]) ].

Example C57_hypotheses :
  @cfg_ok demo /\ @alloc_ok demo /\ @wf_env demo no_env /\ @storage_ok demo demo_w /\
  Forall (@root_in demo no_env demo_mem 10) demo_roots.
Proof.
  ands; [exact demo_cfg|exact demo_alloc_ok|exact no_env_wf|exact demo_w_ok|].
  assert (Hs : forall l tp n, @good_layout demo l -> 0 < l_size l <= 1000 -> 0 < n <= 1000 -> tp <= 10000 ->
            @slice_ok demo l tp n).
  { intros l tp n H1 H2 H3 H4. unfold slice_ok. change (@imax demo) with 9223372036854775807.
    change (@umod demo) with 18446744073709551616. ands; auto; try lia; nia. }
  unfold demo_roots.
  repeat (apply Forall_cons; [unfold root_in; ands; [gl|cbn; lia|le|]|]); [| | | |constructor].
  - unfold demo_panics.
    constructor; [|apart|].
    { apply OK_field; [apply W_vec; [apply W_prim; gl|le]| |cbn; lia|le|dv|dv].
      eapply R_vec; [rd|rd|rd|vok|exact I|].
      apply RE_cons; [apply R_prim; rd|]. apply RE_cons; [apply R_prim; rd|constructor]. }
    constructor; [|apart|].
    { apply OK_push; [le|dv|dv|apply Hs; [gl|cbn; lia|lia|lia]|].
      constructor; [|apart|].
      { apply OK_over; [gl|cbn; lia|le|dv|dv]. }
      constructor; [constructor|intros s' i []|constructor]. }
    constructor; [|apart|constructor].
    apply OK_plain; [le|dv|dv|apply Hs; [gl|cbn; lia|lia|lia]].
  - exact C47_hypotheses.
  - unfold demo_huge.
    constructor; [|apart|].
    { apply OK_plain; [le|dv|dv|apply Hs; [gl|cbn; lia|lia|lia]]. }
    constructor; [|apart|constructor].
    apply OK_raw. unfold slice_ok. change (@imax demo) with 9223372036854775807.
    change (@umod demo) with 18446744073709551616. cbn [l_size]. ands; try lia. gl.
  - constructor; [|apart|constructor].
    apply OK_plain; [le|dv|dv|apply Hs; [gl|cbn; lia|lia|lia]].
Qed.

(** The positions; and in the output of a Complete serializer the pointers, corrected,
    of the second and the fourth value. *)
Example C57_witness : forall k,
  match @session demo k no_env demo_mem 10 demo_roots (from_storage demo_w) with
  | Ok outs z =>
      outs = [(0, None); (104, Some 104); (232, None); (328, Some 328)] /\
      map (fun i => @read_word demo (s_buf (sw_s (z_sw z))) i) [112; 144; 184; 192; 328] =
      match k with
      | Complete => let b := s_ptr (sw_s (z_sw z)) in
                    [Some (b + 192); Some (b + 208); Some 0; Some 99; Some (b + 344)]
      | PtrOffset => [Some 192; Some 208; Some 3; Some 77; Some 344]
      | _ => [Some 8192; Some 8224; Some 3; Some 77; Some 8224]
      end
  | _ => False
  end.
Proof. intros k; destruct k; vm_compute; repeat split. Qed.

(** Catching a panic inside an implementation and going on with the same value is another
    matter: the position mapping is that of the slice whose processing panicked, so the next
    pointer is written for the wrong place.  Here, with a pointer-writing serializer, a debug
    build panics and a release build writes outside the storage. *)
Definition catch_inside {P : Params} (k : kind) (m : mem) : M zs N :=
  serialize_value_with k (slice_at m (mkLayout 88 8) 4096 1)
    (ad <- addr_from_ref_offset k 4096 8 ;;
     catch (push_and_process_slice k (slice_at m u64_layout 8192 1) ad (panics PUser)) ;;;
     ad <- addr_from_ref_offset k 4096 40 ;;
     ser_push_slice k (slice_at m (mkLayout 1 1) 8224 2) ad ;;;
     ret tt).
Theorem C57_inside_counterexample : forall k, k = PtrOffset \/ k = Complete ->
  match @catch_inside demo k demo_mem (from_storage demo_w) with Panic PArith _ => True | _ => False end /\
  match @catch_inside demo_release k demo_mem (from_storage demo_w) with UB => True | _ => False end.
Proof. intros k [->| ->]; vm_compute; repeat split. Qed.
