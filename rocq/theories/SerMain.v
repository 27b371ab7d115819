(** * SerMain: what serializing one allocation, one word, one Vec header does. *)
From Verif Require Import Base Types Storage Serializer Serialize Spec ArithFacts StorageFacts Frame MemFacts TypeFacts SerFacts.
From Coq Require Import ZifyBool ZifyNat ZifyN.
Local Open Scope N_scope.

Section SerMain.
Context {P : Params}.

Notation cap w := (s_cap (sw_s w)).
Notation pos w := (s_pos (sw_s w)).
Notation ptr w := (s_ptr (sw_s w)).
Notation buf w := (s_buf (sw_s w)).
Notation zpos z := (s_pos (sw_s (z_sw z))).
Notation zbuf z := (s_buf (sw_s (z_sw z))).
Notation zcap z := (s_cap (sw_s (z_sw z))).
Notation zptr z := (s_ptr (sw_s (z_sw z))).

Definition seg (p n : N) : N -> Prop := fun i => p <= i /\ i < p + n.

Definition copied (m : mem) (a p : N) (F : N -> Prop) (B : N) (M : mem) : Prop :=
  forall i, F i -> M (B + i) = m (a + (i - p)).

(** ** The position mapping is kept *)
Definition keeps {A} (f : M zs A) : Prop := forall z x z', f z = Ok x z' -> z_map z' = z_map z.

Lemma keeps_bind {A B} (f : M zs A) (g : A -> M zs B) :
  keeps f -> (forall x, keeps (g x)) -> keeps (bind f g).
Proof.
  intros Hf Hg z x z' H. unfold bind in H. destruct (f z) as [y z1|? ?| | |] eqn:Ef; try discriminate.
  rewrite (Hg y z1 x z' H). apply (Hf z y z1 Ef).
Qed.
Lemma keeps_ret {A} (x : A) : keeps (ret x).
Proof. intros z y z' H. inversion H; reflexivity. Qed.
Lemma keeps_panics {A} e : keeps (@panics zs A e).
Proof. intros z y z' H. discriminate. Qed.
Lemma keeps_lift {A} (f : M sw A) : keeps (lift f).
Proof.
  intros z x z' H. unfold lift in H. destruct (f (z_sw z)); try discriminate. inversion H; reflexivity.
Qed.
Lemma keeps_dassert c : keeps c -> keeps (dassert c).
Proof.
  intros Hc. unfold dassert. destruct dbg; [|apply keeps_ret].
  apply keeps_bind; [exact Hc|]. intros []; [apply keeps_ret|apply keeps_panics].
Qed.
Lemma keeps_add a b : keeps (add_u a b).
Proof. unfold add_u. repeat match goal with |- keeps (if ?b then _ else _) => destruct b end; auto using @keeps_ret, @keeps_panics. Qed.
Lemma keeps_sub a b : keeps (sub_u a b).
Proof. unfold sub_u. repeat match goal with |- keeps (if ?b then _ else _) => destruct b end; auto using @keeps_ret, @keeps_panics. Qed.
Lemma keeps_al a b : keeps (is_aligned_to a b).
Proof.
  unfold is_aligned_to. apply keeps_bind; [apply keeps_dassert, keeps_ret|]. intros _.
  apply keeps_bind; [apply keeps_sub|]. intros; apply keeps_ret.
Qed.
Lemma keeps_gets {A} (f : zs -> A) : keeps (gets f).
Proof. intros z x z' H. inversion H; reflexivity. Qed.
Lemma keeps_set_ptrs p : keeps (set_ptrs p).
Proof. intros z x z' H. inversion H; reflexivity. Qed.

Lemma keeps_overwrite_ptr k q t : keeps (overwrite_ptr k q t).
Proof.
  destruct k; cbn [overwrite_ptr]; try (intros z x z' H; discriminate).
  - unfold po_overwrite_ptr, ser_capacity.
    repeat (first [apply keeps_lift | apply keeps_dassert | apply keeps_al | apply keeps_sub | apply keeps_ret
                  | apply keeps_bind; [|intros ?]]).
  - unfold co_overwrite_ptr, ser_capacity, get_ptrs.
    repeat (first [apply keeps_lift | apply keeps_dassert | apply keeps_al | apply keeps_sub | apply keeps_add
                  | apply keeps_ret | apply keeps_gets | apply keeps_set_ptrs
                  | apply keeps_bind; [|intros ?]]).
Qed.

Lemma keeps_pos_for pm a : keeps (pos_for_addr pm a).
Proof.
  unfold pos_for_addr. apply keeps_bind.
  - destruct a; cbn; [intros z x z' H; discriminate|apply keeps_ret].
  - intros n. apply keeps_bind; [apply keeps_sub|]. intros; apply keeps_add.
Qed.

(** push_slice is push_and_process_slice with nothing to process. *)
Lemma ser_push_slice_eq k s a z :
  ser_push_slice k s a z = push_and_process_slice k s a (ret tt) z.
Proof.
  destruct k; cbn [ser_push_slice push_and_process_slice]; auto.
  - unfold pt_push_slice, pt_push_and_process_slice, push_raw_slice, bind, get_map, gets.
    destruct (lift _ z) as [x z1|? ?| | |] eqn:El; auto.
    unfold set_map, modify, ret. cbn. rewrite <- (keeps_lift _ _ _ _ El). destruct z1; reflexivity.
  - unfold pw_push_slice, pw_push_and_process_slice, push_raw_slice, bind, get_map, gets.
    destruct (lift _ z) as [x z1|? ?| | |] eqn:El; auto.
    pose proof (keeps_lift _ _ _ _ El) as K1. rewrite <- K1.
    destruct (pos_for_addr (z_map z1) a z1) as [q z2|? ?| | |] eqn:Ep; auto.
    pose proof (keeps_pos_for _ _ _ _ _ Ep) as K2. rewrite <- K2.
    destruct (overwrite_ptr _ q x z2) as [u z3|? ?| | |] eqn:Eo; auto.
    pose proof (keeps_overwrite_ptr _ _ _ _ _ _ Eo) as K3. rewrite <- K3.
    unfold set_map, modify, ret; cbn. destruct z3; reflexivity.
  - unfold pw_push_slice, pw_push_and_process_slice, push_raw_slice, bind, get_map, gets.
    destruct (lift _ z) as [x z1|? ?| | |] eqn:El; auto.
    pose proof (keeps_lift _ _ _ _ El) as K1. rewrite <- K1.
    destruct (pos_for_addr (z_map z1) a z1) as [q z2|? ?| | |] eqn:Ep; auto.
    pose proof (keeps_pos_for _ _ _ _ _ Ep) as K2. rewrite <- K2.
    destruct (overwrite_ptr _ q x z2) as [u z3|? ?| | |] eqn:Eo; auto.
    pose proof (keeps_overwrite_ptr _ _ _ _ _ _ Eo) as K3. rewrite <- K3.
    unfold set_map, modify, ret; cbn. destruct z3; reflexivity.
Qed.

Section Cfg.
Hypothesis C : cfg_ok.
Hypothesis HA : alloc_ok.

Ltac cfg :=
  pose proof (c_SA_pos C); pose proof (c_MVA_pos C); pose proof (c_VA_pos C);
  pose proof (c_VA_MVA C); pose proof (c_MVA_SA C); pose proof (c_MAXC C);
  pose proof (c_MVA_le_MAXC C); pose proof (c_sum C); pose proof (c_umod C);
  pose proof (c_SA_lt_imax C); pose proof (pW_vals (c_machine C)).

(** The outcome [o'] is [o] with the position mapping of [z] put back. *)
Definition remap {A} (z : zs) (o : outcome zs unit) (o' : outcome zs A) : Prop :=
  match o with
  | Ok _ z4 => exists x, o' = Ok x (mkZ (z_sw z4) (z_map z) (z_ptrs z4))
  | Panic e z4 => o' = Panic e z4
  | Abort => o' = Abort
  | UB => o' = UB
  | OutOfFuel => o' = OutOfFuel
  end.

(** What [push_slice] leaves alone: everything outside the block it writes, from pos() on,
    is what the buffer held before; room added by growth is uninitialised. *)
Lemma push_slice_gaps w l len data p w' :
  storage_ok w -> good_layout l -> 0 < l_size l -> l_size l * len <= imax ->
  (0 < len \/ 0 < cap w \/ l_align l = 1) ->
  push_slice l len data w = Ok p w' ->
  cap w <= cap w' /\
  forall i, i < cap w' ->
    ~ (push_start (pos w) l <= i /\ i < push_start (pos w) l + l_size l * len) ->
    buf w' i = if i <? cap w then buf w i else None.
Proof.
  intros Hok Hg Hs Hsz Hne Hp. cfg.
  rewrite (push_slice_eq C HA) in Hp by assumption. unfold bind, grow_to in Hp.
  cbn [at_pos with_store sw_s s_cap sw_calls] in Hp. pose proof (ok_cap_le w Hok).
  set (need := push_start (pos w) l + l_size l * len) in *.
  destruct (N.leb_spec need (cap w)) as [Hle|Hgt].
  - inversion Hp; subst; clear Hp. cbn. split; [lia|]. intros i Hi Hout.
    rewrite blit_out by lia. rewrite (proj2 (N.ltb_lt i _)) by lia. reflexivity.
  - destruct (N.ltb_spec MAXC need) as [|Hfit]; [discriminate|].
    cbv zeta in Hp. set (c := grown (cap w) need) in *.
    assert (Hc1 : need <= c) by (apply grown_ge; lia).
    destruct (N.eqb_spec (orc (sw_calls w) c) 0) as [|E0]; [discriminate|].
    inversion Hp; subst; clear Hp. unfold moved. cbn. split; [lia|]. intros i Hi Hout.
    rewrite blit_out by lia. destruct (N.eqb_spec (cap w) 0) as [Ez|Ez].
    + destruct (N.ltb_spec i (cap w)); [lia|reflexivity].
    + rewrite (proj2 (N.ltb_lt i c)) by lia. rewrite Bool.andb_true_r. reflexivity.
Qed.

(** Pushing a slice: only its block changes. *)
Lemma push_quietly z l n d p w1 pm pt (F : N -> Prop) :
  storage_ok (z_sw z) -> good_layout l -> 0 < l_size l -> 0 < n \/ 0 < zcap z -> l_size l * n <= imax ->
  push_slice l n d (z_sw z) = Ok p w1 -> quietly F [(l, n)] z (mkZ w1 pm pt) [].
Proof.
  intros Hok Hl Hsz Hn Hle Ep.
  pose proof (push_frame C HA (z_sw z) l n d Hok Hl Hsz Hn Hle) as Hfr. rewrite Ep in Hfr.
  destruct (push_slice_gaps (z_sw z) l n d p w1 Hok Hl Hsz Hle ltac:(tauto) Ep) as [G1 G2].
  split; [intros _; cbn [fpushes]; rewrite Hfr; reflexivity|]. intros _. cbn [z_sw]. ands; auto.
  - intros i Hi Hi2 Hno. apply G2; [exact Hi2|]. cbn [in_blocks] in Hno. tauto.
  - intros q t [].
Qed.

Lemma alloc_tail k z G Gp z1 pm l n m ap pp psc (Rc : N -> mem -> Prop) {A} o (o' : outcome zs A) :
  let st := push_start (zpos z) l in
  good_layout l -> 0 < l_size l ->
  storage_ok (z_sw z) ->
  zinv k z1 (G ++ Gp) -> z_map z1 = z_map z ->
  zpos z1 = push_end (zpos z) l n -> push_end (zpos z) l n <= MAXC ->
  (forall i, i < zpos z -> ~ seg pp pW i -> zbuf z1 i = zbuf z i) ->
  (forall q t, In (q, t) G -> (q + pW <= zpos z)) ->
  (forall q t, In (q, t) Gp -> q = pp /\ t = st) ->
  pp + pW <= zpos z ->
  extends (z_sw z) (z_sw z1) -> 
  quietly (seg pp pW) [(l, n)] z z1 Gp ->
  (tracking k = true -> In (pp, st) Gp) ->
  (tracking k = false -> G = [] /\ Gp = [] /\ copied m ap pp (seg pp pW) 0 (zbuf z1)) ->
  done k (mkZ (z_sw z1) pm (z_ptrs z1)) (G ++ Gp) (seg st (l_size l * n)) psc Rc o ->
  remap z o o' ->
  done k z G (seg pp pW) ((l, n) :: psc)
    (fun B M =>
       (tracking k = true -> word_at_is M (B + pp) (B + st) /\ valid_ref l n (B + st)) /\
       (tracking k = false -> copied m ap pp (seg pp pW) B M) /\ Rc B M) o'.
Proof.
  intros st Hl Hsz Hok Hz1 Hm1 Hp1 Hmax Hb1 HG HGp Hpp Hext Hq Htr Hnt Hd Hre.
  cfg. assert (Hst : zpos z <= st) by (apply (push_start_ge C), Hl).
  pose proof (push_end_ge C (zpos z) l n) as Hend. fold st in Hend.
  destruct o as [u z4|e z4| | |]; cbn in Hre; [destruct Hre as [x ->]| | | |]; subst; auto.
  3:{ cbn in Hd |- *. apply (refused_later [(l, n)] psc z _ (proj1 Hq) Hd). }
  - cbn in Hd. destruct Hd as (Gc & D1 & D2 & D3 & D4 & D5 & D6 & D7 & D8 & D9 & D10).
    cbn [z_sw z_map z_ptrs] in *. cbn. exists (Gp ++ Gc). cbn [z_sw z_map]. rewrite app_assoc. ands; auto; try lia.
    + rewrite D3, Hp1. reflexivity.
    + intros q t Hin. apply in_app_or in Hin. destruct Hin as [Hin|Hin].
      * left. destruct (HGp q t Hin) as [-> _]. intros i; unfold seg; lia.
      * right. destruct (D6 q t Hin) as [Hx|Hx]; [|lia].
        split.
        -- destruct (Hx q) as [Hy _]; lia.
        -- destruct (Hx (q + pW - 1)) as [_ Hy]; lia.
    + intros i Hi HF. rewrite D7; [apply Hb1; auto|lia|unfold seg; lia].
    + apply (quietly_app (seg pp pW) (seg st (l_size l * n)) (seg pp pW) [(l, n)] psc z _ _ Gp Gc Hq D8); auto.
      * apply ok_pos_le. apply (zinv_ok _ _ _ Hz1).
      * intros i Hi. right. left. exact Hi.
      * intros i Hi. unfold seg in Hi. lia.
    + eapply extends_trans; eassumption.
    + intros B M HB Hle Hfit.
      assert (Hzi := D1). destruct Hzi as (_ & Hin4 & Hnd & _).
      split; [|split].
      * intros Hk. pose proof (Htr Hk) as Hin.
        assert (Hstl : B + st < umod) by lia.
        split.
        -- intros i Hi.
           rewrite <- N.add_assoc, Hfit by (left; unfold seg; lia).
           apply overlay_hit; auto; try lia.
           ++ intros q' t' Hin'. apply (Hin4 q' t' Hin').
           ++ apply in_or_app; left. apply in_or_app; right. exact Hin.
        -- unfold valid_ref. ands; [lia| |lia].
           apply N.divide_add_r; [|apply (push_start_align C), Hl].
           eapply divide_trans; [|exact HB]. apply pow2_divide; [apply Hl|apply (c_MVA C)|apply Hl].
      * intros Hk. destruct (Hnt Hk) as (-> & -> & Hcp). intros i HF.
        rewrite Hfit by (left; exact HF).
        rewrite overlay_none.
        -- rewrite D7; [|unfold seg in HF; lia|unfold seg in *; lia].
           specialize (Hcp i HF). rewrite N.add_0_l in Hcp. exact Hcp.
        -- cbn [app] in *. destruct D1 as (_ & _ & _ & _ & bs & _ & Hkd).
           intros q t Hin. destruct k; try discriminate; cbn in Hkd; rewrite Hkd in Hin; destruct Hin.
      * apply D10; auto. intros i Hi. apply Hfit. right. cbn [z_sw] in Hi |- *. unfold seg in Hi. lia.
  - cbn in Hd |- *. destruct Hd as (B2 & B3 & B4 & B5 & B6 & G' & B7 & B8). cbn [z_sw] in *. ands; auto; try lia.
    + eapply stopped_imp; [exact B2|]. apply (full_later [(l, n)] psc z _ _ (proj1 Hq)). exact Hp1.
    + eapply extends_trans; eassumption.
    + intros i Hi HF. rewrite B6; [apply Hb1; auto|lia|unfold seg; lia].
    + exists (Gp ++ G'). rewrite app_assoc. split; [exact B7|].
      intros q t Hin. apply in_app_or in Hin. destruct Hin as [Hin|Hin].
      * left. destruct (HGp q t Hin) as [-> _]. intros i; unfold seg; lia.
      * right. destruct (B8 q t Hin) as [Hx|Hx]; [|lia]. destruct (Hx q) as [Hy _]; lia.
Qed.

Definition addr_of (k : kind) (a : N) : addr := if tracking k then ATrack a else ANoop.

(** The pure kinds never have pointers. *)
Lemma pure_no_ptrs k z G : tracking k = false -> zinv k z G -> G = [].
Proof. intros Hk (_ & _ & _ & _ & bs & _ & Hkd). destruct k; try discriminate; exact Hkd. Qed.

(** Pushing a slice referred to by the pointer word at [pp], then processing it. *)
Lemma alloc_done k z G m l n ap pp tp (process : M zs unit) psc (Rc : N -> mem -> Prop) :
  let st := push_start (zpos z) l in
  ready k z G (seg pp pW) m pp ap ->
  good_layout l -> 0 < l_size l -> l_size l * n <= imax ->
  pW <= MVA -> (pW | pp) ->
  (forall z1 G1, zpos z1 = push_end (zpos z) l n ->
     ready k z1 G1 (seg st (l_size l * n)) m st tp ->
     done k z1 G1 (seg st (l_size l * n)) psc Rc (process z1)) ->
  done k z G (seg pp pW) ((l, n) :: psc)
    (fun B M =>
       (tracking k = true -> word_at_is M (B + pp) (B + st) /\ valid_ref l n (B + st)) /\
       (tracking k = false -> copied m ap pp (seg pp pW) B M) /\ Rc B M)
    (push_and_process_slice k (slice_at m l tp n) (addr_of k ap) process z).
Proof.
  intros st Hr Hl Hsz Hle Hmv Hal Hproc. cfg.
  destruct Hr as (Hz & Hcp & Hnp & Hmap).
  pose proof (zinv_ok k z G Hz) as Hok.
  assert (Hpp : pp + pW <= zpos z).
  { destruct (Hcp (pp + pW - 1)) as (_ & Hx & _); [unfold seg; lia|lia]. }
  assert (Hn : 0 < n \/ 0 < zcap z) by (right; pose proof (ok_pos_le _ Hok); lia).
  pose proof (push_slice_spec C HA (z_sw z) l n (mem_from m tp) Hok Hl Hsz Hle ltac:(tauto)) as Hps.
  pose proof (push_frame C HA (z_sw z) l n (mem_from m tp) Hok Hl Hsz Hn Hle) as Hfr.
  assert (Hst : zpos z <= st) by (apply (push_start_ge C), Hl).
  pose proof (push_end_ge C (zpos z) l n) as Hend. fold st in Hend, Hps.
  assert (Hzin := proj1 (proj2 Hz)).
  destruct (push_slice l n (mem_from m tp) (z_sw z)) as [p1 w1|e w1| | |] eqn:Ep; try contradiction.
  2:{ (* does not fit *)
    destruct Hps as (-> & -> & Hok1 & Hmax).
    assert (Heq : push_and_process_slice k (slice_at m l tp n) (addr_of k ap) process z =
                  Panic PCapacity (mkZ (at_pos (z_sw z) st) (z_map z) (z_ptrs z))).
    { destruct k; cbn [push_and_process_slice]; unfold dflt_push_and_process_slice, pt_push_and_process_slice,
        pw_push_and_process_slice, push_raw_slice, slice_at, bind, get_map, gets, lift; cbn [sl_lay sl_len sl_data];
        rewrite Ep; reflexivity. }
    rewrite Heq. cbn. ands; auto; try lia.
    - right. split; [reflexivity|]. apply (full_first C [(l, n)] psc). split.
      + cbn [end_pos]. lia.
      + intros _. cbn [fpushes]. rewrite (proj2 Hfr). reflexivity.
    - apply extends_same; reflexivity.
    - exists []. rewrite app_nil_r. split; [apply zinv_push; auto|intros q t []]. }
  2:{ assert (Heq : push_and_process_slice k (slice_at m l tp n) (addr_of k ap) process z = Abort).
      { destruct k; cbn [push_and_process_slice]; unfold dflt_push_and_process_slice, pt_push_and_process_slice,
          pw_push_and_process_slice, push_raw_slice, slice_at, bind, get_map, gets, lift; cbn [sl_lay sl_len sl_data];
          rewrite Ep; reflexivity. }
      rewrite Heq. apply (refused_first [(l, n)] psc). split; [exact Hps|].
      intros _. cbn [fpushes]. rewrite Hfr. reflexivity. }
  destruct Hps as (-> & Hpos1 & Hok1 & Hmax & Hb1 & Hd1 & Hext & _).
  set (z1 := mkZ w1 (z_map z) (z_ptrs z)).
  assert (Hq : quietly (seg pp pW) [(l, n)] z z1 []).
  { apply (push_quietly z l n _ _ w1 _ _ _ Hok Hl Hsz Hn Hle Ep). }
  assert (Hz1 : zinv k z1 G) by (apply zinv_push; auto; lia).
  assert (El : lift (push_slice l n (mem_from m tp)) z = Ok st z1) by (apply lift_eq; exact Ep).
  assert (Hkk : tracking k = true \/ tracking k = false) by (destruct (tracking k); auto).
  destruct Hkk as [Hk|Hk].
  - (* pointer kinds *)
    destruct (Hmap Hk) as [Hm1 Hm2].
    destruct (overwrite_ptr_spec C k z1 G pp st) as [Eo Hz2]; auto; try (subst z1; cbn; lia).
    { intros Hin. apply in_map_iff in Hin. destruct Hin as [[q t] [Hqe Hin]]. cbn in Hqe. subst q.
      apply (Hnp pp t Hin pp); [lia|lia|unfold seg; lia]. }
    set (z2 := ptr_written k z1 pp st) in *.
    assert (Hz2sw : zpos z2 = zpos z1 /\ zptr z2 = zptr z1 /\ zcap z2 = zcap z1 /\
                    sw_calls (z_sw z2) = sw_calls (z_sw z1) /\ sw_trace (z_sw z2) = sw_trace (z_sw z1) /\
                    z_map z2 = z_map z1 /\
                    forall i, ~ seg pp pW i -> zbuf z2 i = zbuf z1 i).
    { subst z2. destruct k; try discriminate; cbn; ands; auto; intros i Hi; apply blit_out; unfold seg in Hi; lia. }
    destruct Hz2sw as (Z1 & Z2 & Z3 & Z4 & Z5 & Z6 & Z7).
    assert (Heq : push_and_process_slice k (slice_at m l tp n) (addr_of k ap) process z =
                  bind process (fun _ => bind (set_map (z_map z)) (fun _ => ret st))
                    (mkZ (z_sw z2) (mkMap tp st) (z_ptrs z2))).
    { assert (push_and_process_slice k (slice_at m l tp n) (addr_of k ap) process z =
              pw_push_and_process_slice k (slice_at m l tp n) (ATrack ap) process z) as ->.
      { unfold addr_of. rewrite Hk. destruct k; try discriminate; reflexivity. }
      unfold pw_push_and_process_slice.
      erewrite bind_ok by reflexivity.
      erewrite bind_ok by (unfold slice_at; cbn [sl_lay sl_len sl_data]; exact El).
      erewrite bind_ok.
      2:{ unfold pos_for_addr. erewrite bind_ok by reflexivity.
          erewrite bind_ok by (apply sub_u_ok; exact Hm1).
          rewrite add_u_ok by lia. rewrite <- Hm2. reflexivity. }
      erewrite bind_ok by exact Eo.
      erewrite bind_ok by reflexivity.
      reflexivity. }
    rewrite Heq.
    set (z3 := mkZ (z_sw z2) (mkMap tp st) (z_ptrs z2)).
    eapply alloc_tail with (Gp := [(pp, st)]) (z1 := z2) (pm := mkMap tp st) (o := process z3); auto.
    + rewrite Z1. exact Hpos1.
    + intros i Hi HF. rewrite Z7 by exact HF. apply Hb1. exact Hi.
    + intros q t Hin. apply (Hzin q t Hin).
    + intros q t [Heq'|[]]. inversion Heq'. auto.
    + eapply extends_trans; [exact Hext|]. apply extends_same; auto.
    + change [(pp, st)] with ([] ++ [(pp, st)]). rewrite <- (app_nil_r [(l, n)]).
      eapply (quietly_app (seg pp pW) (seg pp pW)); try eassumption; auto.
      * apply quietly_same; auto.
        -- unfold frame_of. congruence.
        -- apply ok_pos_le. apply (zinv_ok _ _ _ Hz1).
        -- intros i Hi. unfold seg in Hi. subst z1; cbn. lia.
        -- intros q t [Heq'|[]] i Hi1 Hi2. inversion Heq'; subst. unfold seg. lia.
      * apply ok_pos_le. apply (zinv_ok _ _ _ Hz1).
      * intros i Hi. unfold seg in Hi. lia.
    + intros _. left; reflexivity.
    + intros Hx; congruence.
    + apply Hproc.
      * cbn. rewrite Z1. exact Hpos1.
      * unfold ready. subst z3. cbn [z_sw z_map]. ands.
        -- apply zinv_map. exact Hz2.
        -- intros i [Hi1 Hi2]. ands; [exact Hi1|rewrite Z1; subst z1; cbn; lia|].
           rewrite Z7 by (unfold seg; lia). 
           replace i with (st + (i - st)) at 1 by lia. subst z1; cbn. rewrite Hd1 by lia. reflexivity.
        -- intros q t Hin i Hi1 Hi2 [Hs1 Hs2]. apply in_app_or in Hin. destruct Hin as [Hin|[Heq'|[]]].
           ++ destruct (Hzin q t Hin). lia.
           ++ inversion Heq'; subst. lia.
        -- intros _. cbn. lia.
    + unfold remap, bind. fold z3. destruct (process z3) as [u z4|? ?| | |]; auto.
      eexists. reflexivity.
  - (* pure kinds *)
    pose proof (pure_no_ptrs k z G Hk Hz) as ->.
    assert (Hcopy : copied m ap pp (seg pp pW) 0 (zbuf z1)).
    { intros i HF. rewrite N.add_0_l. destruct (Hcp i HF) as (X1 & X2 & X3).
      subst z1; cbn. rewrite Hb1 by exact X2. exact X3. }
    assert (Hrdy : forall pm, ready k (mkZ (z_sw z1) pm (z_ptrs z1)) [] (seg st (l_size l * n)) m st tp).
    { intros pm. unfold ready. ands.
      - apply zinv_map. exact Hz1.
      - intros i [Hi1 Hi2]. ands; [exact Hi1|subst z1; cbn; lia|].
        replace i with (st + (i - st)) at 1 by lia. subst z1; cbn. rewrite Hd1 by lia. reflexivity.
      - intros q t [].
      - intros; congruence. }
    destruct k; try discriminate; cbn [push_and_process_slice].
    + unfold dflt_push_and_process_slice, push_raw_slice, slice_at. cbn [sl_lay sl_len sl_data].
      erewrite bind_ok by exact El.
      eapply alloc_tail with (Gp := []) (z1 := z1) (pm := z_map z1) (o := process z1); auto.
      * intros q t [].
      * intros q t [].
      * intros Hx; discriminate.
      * apply Hproc; [exact Hpos1|apply (Hrdy (z_map z1))].
      * assert (Hd : done PureCopy z1 [] (seg st (l_size l * n)) psc Rc (process z1)).
        { apply Hproc; [exact Hpos1|apply (Hrdy (z_map z1))]. }
        unfold remap, bind. destruct (process z1) as [u z4|? ?| | |]; auto.
        exists st. cbn in Hd. destruct Hd as (G' & _ & Hmm & _). unfold ret. f_equal.
        destruct z4; cbn in *. subst. reflexivity.
    + unfold pt_push_and_process_slice, slice_at. cbn [sl_lay sl_len sl_data sl_addr].
      erewrite bind_ok by reflexivity. erewrite bind_ok by exact El. erewrite bind_ok by reflexivity.
      set (z3 := mkZ (z_sw z1) (mkMap tp st) (z_ptrs z1)).
      eapply alloc_tail with (Gp := []) (z1 := z1) (pm := mkMap tp st) (o := process z3); auto.
      * intros q t [].
      * intros q t [].
      * intros Hx; discriminate.
      * apply Hproc; [exact Hpos1|apply (Hrdy (mkMap tp st))].
      * unfold remap, bind. fold z3. destruct (process z3) as [u z4|? ?| | |]; auto.
        eexists. reflexivity.
Qed.

(** ** Small rules *)
Lemma done_void {A} k z G F ps R (f : M zs A) :
  done k z G F ps R (f z) -> done k z G F ps R (bind f (fun _ => ret tt) z).
Proof. unfold bind. destruct (f z); auto. Qed.

(** The rest of a region a piece does not touch keeps the input's bytes. *)
Lemma done_frame {A} k z G (F1 F2 : N -> Prop) ps R m p a (o : outcome zs A) :
  ready k z G (fun i => F1 i \/ F2 i) m p a ->
  (forall i, F1 i -> ~ F2 i) ->
  done k z G F1 ps R o ->
  done k z G (fun i => F1 i \/ F2 i) ps (fun B M => R B M /\ copied m a p F2 B M) o.
Proof.
  intros Hr Hd H.
  pose proof (done_seq C k z G F1 F2 ps [] R (copied m a p F2) m p a (fun _ => o) (fun _ => ret tt)
                Hr Hd H) as Hs.
  rewrite app_nil_r in Hs.
  assert (Hs' : done k z G (fun i => F1 i \/ F2 i) ps
                  (fun B M => R B M /\ copied m a p F2 B M) (bind (fun _ => o) (fun _ => ret tt) z)).
  { apply Hs. intros x z1 G1 _ Hr1 _ _. eapply done_ret; [exact Hr1|]. intros B M Hc. exact Hc. }
  unfold bind in Hs'. destruct o; auto.
Qed.

Lemma ready_eqF k z G (F F' : N -> Prop) m p a :
  (forall i, F' i <-> F i) -> ready k z G F m p a -> ready k z G F' m p a.
Proof. intros H Hr. eapply ready_sub; [exact Hr|]. intros i; apply H. Qed.

Lemma done_eqF {A} k z G (F F' : N -> Prop) ps (R R' : N -> mem -> Prop) (o : outcome zs A) :
  (forall i, F i <-> F' i) ->
  (forall B M, (MVA | B) -> R B M -> R' B M) ->
  done k z G F ps R o -> done k z G F' ps R' o.
Proof.
  intros H HR Hd. eapply done_weaken; [exact Hd|intros i; apply H|]. intros B M HB HRB _ _ _ _ _. auto.
Qed.

(** ** Overwriting bytes (Complete) *)
Lemma overwrite_done z G m l data ap pp :
  ready Complete z G (seg pp (l_size l)) m pp ap ->
  good_layout l -> 0 < l_size l -> (l_align l | pp) ->
  done Complete z G (seg pp (l_size l)) []
    (fun B M => forall i, i < l_size l -> M (B + pp + i) = data i)
    (overwrite Complete (ATrack ap) l data z).
Proof.
  intros (Hz & Hcp & Hnp & Hmap) Hl Hsz Hal. cfg.
  pose proof (zinv_ok _ z G Hz) as Hok.
  pose proof (ok_pos_le _ Hok). pose proof (ok_cap_le _ Hok).
  destruct (Hmap eq_refl) as [Hm1 Hm2].
  assert (Hpp : pp + l_size l <= zpos z).
  { destruct (Hcp (pp + l_size l - 1)) as (_ & Hx & _); [unfold seg; lia|lia]. }
  assert (Hdis : forall q t, In (q, t) G -> q + pW <= pp \/ pp + l_size l <= q).
  { intros q t Hin.
    destruct (N.le_gt_cases (q + pW) pp) as [|Hx]; [auto|right].
    destruct (N.le_gt_cases (pp + l_size l) q) as [|Hy]; [auto|exfalso].
    destruct (N.le_gt_cases q pp).
    - apply (Hnp q t Hin pp); [lia|lia|unfold seg; lia].
    - apply (Hnp q t Hin q); [lia|lia|unfold seg; lia]. }
  cbn [overwrite]. unfold do_overwrite.
  erewrite bind_ok by reflexivity.
  erewrite bind_ok.
  2:{ unfold pos_for_addr. erewrite bind_ok by reflexivity.
      erewrite bind_ok by (apply sub_u_ok; exact Hm1).
      rewrite add_u_ok by lia. rewrite <- Hm2. reflexivity. }
  rewrite (lift_eq _ z tt (placed (z_sw z) pp (l_size l) data (zpos z))).
  2:{ unfold write. rewrite (write_slice_eq C); auto.
      - destruct (N.eqb_spec (l_size l) 0); [lia|]. rewrite N.mul_1_r. reflexivity.
      - lia.
      - lia.
      - right; left. split; [lia|]. apply Hok. lia. }
  cbn. exists []. rewrite app_nil_r. ands; auto; try lia.
  - apply zinv_write; auto.
  - intros q t [].
  - intros i Hi HF. apply blit_out. unfold seg in HF. lia.
  - apply quietly_same; auto.
    + intros i HF. apply blit_out. unfold seg in HF. lia.
    + intros i HF. unfold seg in HF. lia.
    + intros q t [].
  - apply extends_same; reflexivity.
  - intros B M HB Hle Hfit i Hi. rewrite <- N.add_assoc, Hfit by (left; unfold seg; lia).
    rewrite overlay_none.
    + cbn. rewrite blit_in by lia. f_equal. lia.
    + intros q t Hin. destruct (covers (pp + i) (q, t)) eqn:Ec; [|reflexivity].
      apply covers_true in Ec. destruct (Hdis q t Hin); lia.
Qed.

(** ** Vec / String fields found at compile time *)
Lemma vec_offsets_ok vl d : d <> 0 ->
  vec_offsets vl d = Some (mkVoffs (ptr_off vl) (cap_off vl) (len_off vl)).
Proof.
  intros Hd. destruct d as [|d]; [congruence|].
  assert (W0 : forall x l, word_at 0 (x :: l) = x) by reflexivity.
  assert (W1 : forall x y l, word_at 1 (x :: y :: l) = y) by reflexivity.
  assert (W2 : forall x y z l, word_at 2 (x :: y :: z :: l) = z) by reflexivity.
  unfold vec_offsets, ptr_index, offsets_words, ptr_off, cap_off, len_off.
  destruct vl; cbn [words_of cap_ix len_ix ptr_ix]; rewrite ?W0, ?W1, ?W2;
    cbn -[N.mul word_at]; rewrite ?Pos.eqb_refl; cbn -[N.mul word_at];
    rewrite ?W0, ?W1, ?W2; f_equal; f_equal; lia.
Qed.

Lemma usize_word_done z G m ap pp x :
  ready Complete z G (seg pp pW) m pp ap -> pW <= MVA -> (pW | pp) -> x < umod ->
  done Complete z G (seg pp pW) [] (fun B M => word_at_is M (B + pp) x)
    (overwrite Complete (ATrack ap) usize_layout (word_src x) z).
Proof.
  intros Hr Hmv Hal Hx. pose proof (pW_vals (c_machine C)).
  eapply done_eqF; [reflexivity| |apply (overwrite_done z G m usize_layout (word_src x) ap pp)]; auto.
  - apply usize_good; auto.
  - cbn; lia.
Qed.

Lemma two_words_done z G m ap pp x y :
  ready Complete z G (seg pp (2 * pW)) m pp ap -> pW <= MVA -> (pW | pp) -> x < umod -> y < umod ->
  done Complete z G (seg pp (2 * pW)) []
    (fun B M => word_at_is M (B + pp) x /\ word_at_is M (B + (pp + pW)) y)
    (overwrite Complete (ATrack ap) two_words_layout (two_words x y) z).
Proof.
  intros Hr Hmv Hal Hx Hy. cfg. pose proof (imax_big (c_machine C)).
  eapply done_eqF; [reflexivity| |apply (overwrite_done z G m two_words_layout (two_words x y) ap pp)]; auto.
  - cbn [l_size two_words_layout]. intros B M _ HR. split.
    + intros i Hi. rewrite HR by lia. apply two_words_lo_hi. exact Hi.
    + intros i Hi.
      replace (B + (pp + pW) + i) with (B + pp + (pW + i)) by lia. rewrite HR by lia.
      apply two_words_lo_hi. exact Hi.
  - unfold good_layout, two_words_layout; cbn [l_size l_align]. ands; try lia.
    + apply pW_pow2, (c_machine C).
    + apply N.divide_mul_r, N.divide_refl.
  - cbn [l_size two_words_layout]. lia.
Qed.

Lemma add_u_bind {A} a b (f : addr -> M zs A) z :
  a + b < umod -> bind (n <- add_u a b ;; ret (ATrack n)) f z = f (ATrack (a + b)) z.
Proof. intros H. unfold bind. rewrite add_u_ok by exact H. reflexivity. Qed.

(** Capacity and pointer of an empty Vec: exactly these two words are written. *)
Lemma overwrite_empty_done z G m vl d a p :
  ready Complete z G (fun i => seg (p + cap_off vl) pW i \/ seg (p + ptr_off vl) pW i) m p a ->
  pW <= MVA -> (pW | p) -> d < umod -> a + 3 * pW <= umod ->
  done Complete z G (fun i => seg (p + cap_off vl) pW i \/ seg (p + ptr_off vl) pW i) []
    (fun B M => word_at_is M (B + (p + cap_off vl)) 0 /\ word_at_is M (B + (p + ptr_off vl)) d)
    (overwrite_empty Complete (mkVoffs (ptr_off vl) (cap_off vl) (len_off vl)) d a z).
Proof.
  intros Hr Hmv Hal Hd Ha. cfg.
  assert (Hp2 : (pW | p + pW)) by (apply N.divide_add_r; [exact Hal|apply N.divide_refl]).
  assert (Hp3 : (pW | p + 2 * pW)) by (apply N.divide_add_r; [exact Hal|apply N.divide_mul_r, N.divide_refl]).
  unfold overwrite_empty, addr_from_ref, addr_from_ref_offset; cbn [vo_cap vo_ptr tracking].
  destruct vl; cbn [cap_off ptr_off cap_ix ptr_ix] in *; unfold cap_off, ptr_off in *; cbn [cap_ix ptr_ix] in *;
    rewrite ?N.mul_0_l, ?N.mul_1_l, ?N.add_0_r in *.
  all: repeat match goal with |- context [?x =? ?y] =>
         first [rewrite (proj2 (N.eqb_eq x y)) by lia | rewrite (proj2 (N.eqb_neq x y)) by lia] end;
       cbn [andb].
  - (* CPL *) erewrite bind_ok by reflexivity.
    eapply done_eqF; [| |apply (two_words_done z G m a p 0 d)]; auto; try lia.
    + intros i; unfold seg; lia.
    + eapply ready_eqF; [|exact Hr]. intros i; unfold seg; lia.
  - (* CLP *) rewrite add_u_bind by lia. cbv beta. rewrite ?N.add_0_r.
    change (@nil (layout * N)) with (@nil (layout * N) ++ []).
    eapply done_seq with (m := m) (p := p) (a := a); auto.
    + intros i; unfold seg; lia.
    + apply (usize_word_done z G m a p 0); auto; try lia. eapply ready_sub; [exact Hr|]. intros i; cbv beta; auto.
    + intros x z1 G1 _ Hr1 _ _. rewrite add_u_bind by lia. cbv beta.
      eapply done_eqF; [reflexivity| |apply (usize_word_done z1 (G ++ G1) m (a + 2 * pW) (p + 2 * pW) d)]; auto; try lia.
      apply ready_shift; auto. intros i; unfold seg; lia.
  - (* PCL *) erewrite bind_ok by reflexivity.
    eapply done_eqF; [| |apply (two_words_done z G m a p d 0)]; auto; try lia.
    + intros i; unfold seg; lia.
    + intros B M _ [R1 R2]; auto.
    + eapply ready_eqF; [|exact Hr]. intros i; unfold seg; lia.
  - (* PLC *) rewrite add_u_bind by lia. cbv beta.
    change (@nil (layout * N)) with (@nil (layout * N) ++ []).
    eapply done_seq with (m := m) (p := p) (a := a); auto.
    + intros i; unfold seg; lia.
    + apply (usize_word_done z G m (a + 2 * pW) (p + 2 * pW) 0); auto; try lia.
      apply ready_shift; [|intros i; unfold seg; lia]. eapply ready_sub; [exact Hr|]. intros i; cbv beta; auto.
    + intros x z1 G1 _ Hr1 _ _. rewrite add_u_bind by lia. cbv beta. rewrite ?N.add_0_r.
      apply (usize_word_done z1 (G ++ G1) m a p d); auto; try lia.
  - (* LCP *) rewrite add_u_bind by lia. cbv beta.
    eapply done_eqF; [| |apply (two_words_done z G m (a + pW) (p + pW) 0 d)]; auto; try lia.
    + intros i; unfold seg; lia.
    + intros B M _ [R1 R2]. split; [exact R1|]. intros i Hi. rewrite <- (R2 i Hi). f_equal. lia.
    + apply ready_shift; [|intros i; unfold seg; lia]. eapply ready_eqF; [|exact Hr]. intros i; unfold seg; lia.
  - (* LPC *) rewrite add_u_bind by lia. cbv beta.
    eapply done_eqF; [| |apply (two_words_done z G m (a + pW) (p + pW) d 0)]; auto; try lia.
    + intros i; unfold seg; lia.
    + intros B M _ [R1 R2]. split; [intros i Hi; rewrite <- (R2 i Hi); f_equal; lia|exact R1].
    + apply ready_shift; [|intros i; unfold seg; lia]. eapply ready_eqF; [|exact Hr]. intros i; unfold seg; lia.
Qed.


End Cfg.
End SerMain.
