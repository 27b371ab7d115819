(** * PropMoves: pointers written any number of times, and clear during serialization,
    exactly (C52, C53). *)
From Verif Require Import Base Types Storage Serializer Serialize Spec ArithFacts StorageFacts
  StorageHist MemFacts TypeFacts SerFacts SerMain SerValue SerRoot Moves StorageProps SerProps Corner Misuse Repush
  PropStorage PropSerialize Demo WitnessSerialize.
From Coq Require Import ZifyBool ZifyNat ZifyN.
Local Open Scope N_scope.

(** The log [run_log] keeps is that of the calls made, and the run is the plain one. *)
Lemma run_log_faithful {P : Params} : forall evs z,
  match run_log evs z with
  | Ok h z' => run_events Complete evs z = Ok tt z' /\ map (fun x => (w_pos x, w_target x)) h = ptrs_of evs
  | Panic e z' => run_events Complete evs z = Panic e z'
  | Abort => run_events Complete evs z = Abort
  | UB => run_events Complete evs z = UB
  | OutOfFuel => run_events Complete evs z = OutOfFuel
  end.
Proof.
  induction evs as [|[q t|o] evs IH]; intros z; cbn [run_log run_events]; [cbn; auto| |].
  - rewrite (bind_ok (lift as_ptr) _ z (s_ptr (sw_s (z_sw z))) z) by (destruct z; reflexivity).
    unfold bind, ret. destruct (overwrite_ptr Complete q t z) as [[] z1|e z1| | |]; auto.
    specialize (IH z1). destruct (run_log evs z1) as [h z2|e z2| | |]; auto.
    destruct IH as [A B]. split; [exact A|]. cbn. rewrite B. reflexivity.
  - destruct (run_op o (z_sw z)) as [r w'|e w'| | |]; auto; apply IH.
Qed.

(** ** C52: what finalize leaves in a pointer that was written several times.

    Any history of pointer writes and storage calls other than clear (see [calls_ok]).
    With F the final address of the buffer, the word at the position of a write that was
    not written again later ends up as F + target plus, for every earlier write at the same
    position, the distance the buffer has moved since that write, all modulo 2^bits.
    Nothing else changes. *)
Theorem C52_repush_exactly {P : Params} : forall evs w,
  cfg_ok -> alloc_ok -> pW <= MVA -> storage_ok w -> calls_ok evs (from_storage w) ->
  match run_log evs (from_storage w) with
  | Ok h z =>
      run_events Complete evs (from_storage w) = Ok tt z /\
      map (fun x => (w_pos x, w_target x)) h = ptrs_of evs /\
      exists z', finalize Complete z = Ok tt z' /\
        let F := s_ptr (sw_s (z_sw z')) in
        s_pos (sw_s (z_sw z')) = s_pos (sw_s (z_sw z)) /\ F = s_ptr (sw_s (z_sw z)) /\
        (forall h1 x h2, h = h1 ++ x :: h2 -> ~ In (w_pos x) (map w_pos h2) ->
           read_word (s_buf (sw_s (z_sw z'))) (w_pos x) =
           Some ((F + w_target x + drift F (w_pos x) h1) mod umod)) /\
        (forall i, (forall x, In x h -> i < w_pos x \/ w_pos x + pW <= i) ->
           s_buf (sw_s (z_sw z')) i = s_buf (sw_s (z_sw z)) i)
  | Abort => alloc_failed
  | _ => False
  end.
Proof.
  intros evs w C HA Hmv Hok Hev.
  assert (H0 : hinv (from_storage w) []).
  { unfold hinv. ands; auto; [intros x []|]. intros h1 x h2 He. destruct h1; discriminate. }
  pose proof (log_inv C HA Hmv evs _ [] H0 Hev) as Hi.
  pose proof (run_log_faithful evs (from_storage w)) as Hf.
  destruct (run_log evs (from_storage w)) as [h z|e z| | |]; auto.
  destruct Hf as [F1 F2]. ands; auto. cbn [app] in Hi.
  destruct (hinv_finalize C z h Hi Hmv) as (z' & E & Z1 & Z2 & Z3 & Z4 & Z5 & Z6).
  exists z'. rewrite Z3. ands; auto.
Qed.

(** Two writes at the same position: the pointer is right if and only if the buffer ended
    up where it was at the first write. *)
Theorem C52_twice {P : Params} : forall evs w h1 x h2 y h3 z z',
  cfg_ok -> alloc_ok -> pW <= MVA -> storage_ok w -> calls_ok evs (from_storage w) ->
  run_log evs (from_storage w) = Ok (h1 ++ x :: h2 ++ y :: h3) z -> finalize Complete z = Ok tt z' ->
  w_pos x = w_pos y -> ~ In (w_pos y) (map w_pos (h1 ++ h2 ++ h3)) ->
  (read_word (s_buf (sw_s (z_sw z'))) (w_pos y) = Some (s_ptr (sw_s (z_sw z')) + w_target y) <->
   w_base x = s_ptr (sw_s (z_sw z'))).
Proof.
  intros evs w h1 x h2 y h3 z z' C HA Hmv Hok Hev Hr Hf Hxy Hni.
  assert (H0 : hinv (from_storage w) []).
  { unfold hinv. ands; auto; [intros u []|]. intros g1 u g2 He. destruct g1; discriminate. }
  pose proof (log_inv C HA Hmv evs _ [] H0 Hev) as Hi. rewrite Hr in Hi. cbn [app] in Hi.
  destruct (hinv_finalize C z _ Hi Hmv) as (z2 & E & Z1 & Z2 & Z3 & Z4 & Z5 & Z6).
  rewrite Hf in E. inversion E; subst z2. clear E.
  assert (Hn1 : ~ In (w_pos y) (map w_pos h1)) by (intros X; apply Hni; rewrite map_app; apply in_or_app; auto).
  assert (Hn2 : ~ In (w_pos y) (map w_pos h2)) by (intros X; apply Hni; rewrite !map_app, !in_app_iff; auto).
  assert (Hn3 : ~ In (w_pos y) (map w_pos h3)) by (intros X; apply Hni; rewrite !map_app, !in_app_iff; auto).
  rewrite (Z5 (h1 ++ x :: h2) y h3); [|rewrite <- app_assoc; reflexivity|exact Hn3].
  rewrite drift_app. cbn [drift]. rewrite (drift_none _ _ h1 Hn1), (drift_none _ _ h2 Hn2).
  rewrite Hxy, N.eqb_refl, Z3.
  pose proof Hi as (Hoz & _ & Hp & Hw).
  assert (Hinx : In x (h1 ++ x :: h2 ++ y :: h3)) by (apply in_or_app; right; left; reflexivity).
  destruct (Hp x Hinx) as (X1 & X2 & X3 & _).
  assert (Hiny : In y (h1 ++ x :: h2 ++ y :: h3)).
  { apply in_or_app; right; right. apply in_or_app; right; left; reflexivity. }
  destruct (Hp y Hiny) as (_ & _ & _ & Y4).
  pose proof (c_umod C) as Hu. pose proof (ok_pos_le _ Hoz) as Hpc.
  pose proof (pW_vals (c_machine C)) as HW.
  assert (HF : s_ptr (sw_s (z_sw z)) + s_cap (sw_s (z_sw z)) < umod) by (apply Hoz; lia).
  set (F := s_ptr (sw_s (z_sw z))) in *.
  assert (HA1 : forall A B, A < umod -> (A + B) mod umod = A -> B mod umod = 0).
  { intros A B HAu HAB. rewrite N.add_mod, (N.mod_small A) in HAB by lia.
    pose proof (N.mod_lt B umod ltac:(lia)) as L2.
    destruct (N.lt_ge_cases (A + B mod umod) umod) as [Hl|Hg].
    - rewrite N.mod_small in HAB by exact Hl. lia.
    - rewrite N.mod_eq in HAB by lia.
      assert (HQ : (A + B mod umod) / umod = 1).
      { symmetry. apply N.div_unique with (r := A + B mod umod - umod); lia. }
      rewrite HQ in HAB. lia. }
  split.
  - intros Heq. assert (Hm := f_equal (fun o => match o with Some v => v | None => 0 end) Heq). cbn beta iota in Hm.
    apply HA1 in Hm; [|lia].
    destruct (N.eq_dec (w_base x) F) as [|Hne]; [assumption|exfalso].
    destruct (N.lt_ge_cases (w_base x) F) as [Hl|Hg].
    + replace (0 + (F + umod - w_base x + 0)) with (F - w_base x + 1 * umod) in Hm by lia.
      rewrite N.mod_add, N.mod_small in Hm by lia. lia.
    + rewrite N.mod_small in Hm by lia. lia.
  - intros Hb. rewrite Hb. f_equal.
    replace (F + w_target y + (0 + (F + umod - F + 0))) with (F + w_target y + 1 * umod) by lia.
    rewrite N.mod_add by lia. apply N.mod_small. lia.
Qed.

(** ** C53: finalize after any safe calls, clear included, exactly.

    Undefined behaviour if and only if some pointer was written while the buffer was at
    another address than now and its word is no longer inside the buffer or not
    initialised; otherwise finalize succeeds. *)
Theorem C53_finalize_exactly {P : Params} : forall evs w,
  cfg_ok -> alloc_ok -> pW <= MVA -> storage_ok w -> any_calls_ok evs (from_storage w) ->
  match run_log evs (from_storage w) with
  | Ok h z =>
      run_events Complete evs (from_storage w) = Ok tt z /\
      map (fun x => (w_pos x, w_target x)) h = ptrs_of evs /\
      let bad := exists x, In x h /\ w_base x <> s_ptr (sw_s (z_sw z)) /\
                   (s_cap (sw_s (z_sw z)) < w_pos x + pW \/
                    read_word (s_buf (sw_s (z_sw z))) (w_pos x) = None) in
      (finalize Complete z = UB <-> bad) /\
      (~ bad -> exists z', finalize Complete z = Ok tt z' /\ storage_ok (z_sw z'))
  | Abort => alloc_failed
  | _ => False
  end.
Proof.
  intros evs w C HA Hmv Hok Hev.
  assert (H0 : rinv (from_storage w) []) by (unfold rinv; ands; auto; intros x []).
  pose proof (log_rinv C HA Hmv evs _ [] H0 Hev) as Hi.
  pose proof (run_log_faithful evs (from_storage w)) as Hf.
  destruct (run_log evs (from_storage w)) as [h z|e z| | |]; auto.
  destruct Hf as [F1 F2]. ands; auto. cbn [app] in Hi. intros bad.
  pose proof (rinv_finalize C z h Hi Hmv) as HR. cbn zeta in HR. fold bad in HR. destruct HR as [A B].
  assert (Hdec : bad \/ ~ bad).
  { unfold bad. 
    destruct (List.Exists_dec (fun x => w_base x <> s_ptr (sw_s (z_sw z)) /\ bad_word (z_sw z) (w_pos x)) h) as [X|X].
    - intros x. destruct (N.eq_dec (w_base x) (s_ptr (sw_s (z_sw z)))) as [e|e]; [right; tauto|].
      destruct (bad_word_dec (z_sw z) (w_pos x)) as [b|b]; [left; auto|right; tauto].
    - left. apply Exists_exists in X. exact X.
    - right. intros Y. apply X. apply Exists_exists. exact Y. }
  split.
  - split; [|exact A]. intros Hu. destruct Hdec as [|Hn]; [assumption|].
    destruct (B Hn) as (z' & E & _). congruence.
  - intros Hn. destruct (B Hn) as (z' & E & Z1 & Z2 & Z3). exists z'. split; [exact E|].
    unfold storage_ok. rewrite Z1, Z2, Z3. apply Hi.
Qed.

(** ** Witnesses *)
Definition op_okb2 {P : Params} (w : sw) (o : sop) : bool :=
  match o with OClear => true | _ => op_okb w o end.
Fixpoint calls_okb {P : Params} (clr : bool) (evs : list event) (z : zs) : bool :=
  match evs with
  | [] => true
  | VPtr q t :: evs' =>
      (q mod pW =? 0) && (q + pW <=? s_pos (sw_s (z_sw z))) && (t <=? s_pos (sw_s (z_sw z))) &&
      match overwrite_ptr Complete q t z with Ok _ z' => calls_okb clr evs' z' | _ => true end
  | VOp o :: evs' =>
      (if clr then op_okb2 (z_sw z) o else op_okb (z_sw z) o) &&
      match run_op o (z_sw z) with
      | Ok _ w' | Panic _ w' => calls_okb clr evs' (mkZ w' (z_map z) (z_ptrs z))
      | _ => true
      end
  end.
Lemma op_okb_ok {P : Params} w o : op_okb w o = true -> op_valid o /\ o <> OClear /\ ~ empty_slice_push w o.
Proof.
  intros Ho. ands.
  - destruct o; try discriminate; cbn in *; auto.
    + apply andb_prop in Ho as [Ho _]. apply andb_prop in Ho as [Ho Ho2].
      split; [apply good_layoutb_ok; auto|apply N.leb_le; auto].
    + apply N.ltb_lt; auto.
  - destruct o; discriminate.
  - destruct o; cbn; auto. intros (-> & _). cbn in Ho. rewrite andb_false_r in Ho. discriminate.
Qed.
Lemma calls_okb_ok {P : Params} : pW <> 0 -> forall evs z,
  (calls_okb false evs z = true -> calls_ok evs z) /\ (calls_okb true evs z = true -> any_calls_ok evs z).
Proof.
  intros HW. induction evs as [|[q t|o] evs IH]; intros z; cbn [calls_okb calls_ok any_calls_ok]; auto.
  - assert (Hx : forall b, (q mod pW =? 0) && (q + pW <=? s_pos (sw_s (z_sw z))) && (t <=? s_pos (sw_s (z_sw z))) && b = true ->
       (pW | q) /\ q + pW <= s_pos (sw_s (z_sw z)) /\ t <= s_pos (sw_s (z_sw z)) /\ b = true).
    { intros b H. apply andb_prop in H as [H H4]. apply andb_prop in H as [H H3].
      apply andb_prop in H as [H H2]. ands; auto.
      - apply N.mod_divide; auto. apply N.eqb_eq. assumption.
      - apply N.leb_le. assumption.
      - apply N.leb_le. assumption. }
    split; intros H; apply Hx in H; destruct H as (A & B & D & E); ands; auto;
      destruct (overwrite_ptr Complete q t z); auto; apply IH; exact E.
  - split; intros H; apply andb_prop in H; destruct H as [Ho H].
    + destruct (op_okb_ok _ _ Ho) as (A & B & D). ands; auto. destruct (run_op o (z_sw z)); auto; apply IH; auto.
    + assert (Ho' : op_valid o /\ ~ empty_slice_push (z_sw z) o).
      { destruct o; try (destruct (op_okb_ok _ _ Ho) as (A & B & D); split; assumption). split; [exact I|exact (fun x => x)]. }
      destruct Ho' as [A B]. ands; auto. destruct (run_op o (z_sw z)); auto; apply IH; auto.
Qed.

(** The pointer at 8 is written at buffer addresses 65536 and 131072, with the buffer ending
    at 196608: it is off by the distance moved since the first write; the pointer at 0,
    written once, is right. *)
Definition twice_evs : list event :=
  [ VOp (OPushSlice u64_layout 3 (bytes_src (repeat 7 24))); VPtr 8 0; VPtr 0 16; VOp (OReserve 100); VPtr 8 16;
    VOp (OReserve 1000) ].
Example C52_witness :
  @calls_ok demo twice_evs (@from_storage sw_new) /\
  match @run_log demo twice_evs (from_storage sw_new) with
  | Ok h z => h = [mkWrote 8 65536 0; mkWrote 0 65536 16; mkWrote 8 131072 16] /\ s_ptr (sw_s (z_sw z)) = 196608 /\
     match @finalize demo Complete z with
     | Ok _ z' => @read_word demo (s_buf (sw_s (z_sw z'))) 0 = Some (196608 + 16) /\
                  @read_word demo (s_buf (sw_s (z_sw z'))) 8 = Some (196608 + 16 + (196608 - 65536))
     | _ => False
     end
  | _ => False
  end.
Proof.
  split; [apply calls_okb_ok; [discriminate|]; vm_compute; reflexivity|].
  vm_compute. repeat split.
Qed.

(** clear alone does no harm to memory safety (the stale word is still in the buffer);
    clear and shrink_to_fit does. *)
Definition clear_evs : list event :=
  [ VOp (OPushSlice u64_layout 3 (bytes_src (repeat 7 24))); VPtr 8 0; VOp (OReserve 100); VOp OClear ].
Example C53_witness :
  @any_calls_ok demo (clear_evs ++ [VOp OShrink]) (@from_storage sw_new) /\
  (match @run_log demo clear_evs (from_storage sw_new) with
   | Ok h z => h = [mkWrote 8 65536 0] /\
      match @finalize demo Complete z with
      | Ok _ z' => @read_word demo (s_buf (sw_s (z_sw z'))) 8 = Some 131072 /\ s_pos (sw_s (z_sw z')) = 0
      | _ => False
      end
   | _ => False
   end) /\
  (match @run_log demo (clear_evs ++ [VOp OShrink]) (from_storage sw_new) with
   | Ok h z => @finalize demo Complete z = UB | _ => False end).
Proof.
  ands.
  - apply calls_okb_ok; [discriminate|]. vm_compute. reflexivity.
  - vm_compute; repeat split.
  - vm_compute; repeat split.
Qed.
