(** * PropRelocate: property C91 (outputs of whole programs used at another address). *)
From Coq Require Import Arith.
From Verif Require Import Base Types Storage Serializer Serialize Client Spec ClientSpec ArithFacts TypeFacts MemFacts SerMain SerRoot SerProps
  PropGaps PropTree Load PropLoad
  ClientFacts PropClient Derive DeriveSpec DeriveFacts Mixed MixedFacts PropMixed MixedValid PropMixedValue PropMixedSession
  GenStorage GenSpec GenFacts PropGen GenSerializer GenSerSpec GenSerAV GenSerFacts GenSerRoot PropGenSer
  GenClient GenClientSpec GenClientFacts PropGenClient GenMixed GenMixedFacts PropGenMixed Relocate.
From Coq Require Import ZifyBool ZifyNat ZifyN.
Local Open Scope N_scope.

(** What is claimed of an output: [M] is its memory, [B] the address it is at, [len] its length, [b] where it began
    ([rs]: the values with the calls of their impls).  [hs]: the positions of its pointer words. *)
Definition relocatable {P : Params} (k : kind) (E : tenv) (m M : mem) (B b len : N) (rs : list (layout * N * list step)) (hs : list N) : Prop :=
  (* they are words of the output, not overlapping, each pointing into the output *)
  separate (words pW hs) /\
  (forall q, In q hs -> b <= q /\ q + pW <= len /\ exists t, read_word M (B + q) = Some (B + t) /\ t <= len) /\
  (* copied anywhere with those words adjusted, the output is as good as where it was made *)
  (forall M' B', 0 < B' -> (MVA | B') -> B' + len <= umod -> moved_to M B M' B' len hs -> regions k E m M' B' b rs).

Lemma relocatable_intro {P : Params} k E m fuel M B b rs : cfg_ok -> tracking k = true ->
  Forall (root_in E m fuel) rs -> Forall root_no_fields rs -> regions k E m M B b rs ->
  relocatable k E m M B b (roots_end E b rs) rs (roots_words E b rs).
Proof.
  intros C HT Hrs Hn HG. split; [|split].
  - eapply roots_apart; eassumption.
  - intros q Hq. destruct (roots_where C E m fuel rs Hrs Hn b q Hq) as [H1 H2]. ands; auto.
    eapply roots_point; eassumption.
  - intros M' B' H0 Hd Hl [K1 K2]. apply (regions_moved C E m fuel k HT M M' B B' (roots_end E b rs) H0 Hd Hl rs Hrs Hn b (N.le_refl _)); [|exact HG].
    split; [|exact K2]. intros i Hi Hno. apply K1; [lia|]. intros q Hq.
    destruct (N.lt_ge_cases i q) as [?|?]; [auto|]. destruct (N.le_gt_cases (q + pW) i) as [?|?]; [auto|].
    exfalso. apply Hno. exists q. auto.
Qed.

(** Hand-written implementations, over any storage, pointer-writing serializers. *)
Theorem C91_hand_written {P : Params} {St} (R : ra_impl St) inv contents empties :
  cfg_ok -> keeps_contract (r_st R) inv contents empties -> reserve_keeps_pos (r_st R) inv ->
  forall k E m, storage_for k R inv contents -> wf_env E -> tracking k = true ->
  forall fuel rs s ps z, ready (r_st R) inv s ->
  Forall (root_in E m fuel) rs -> Forall root_plain rs -> Forall root_no_fields rs ->
  g_client_all R k E m fuel rs (g_from_storage s) = Ok ps z ->
  let B := g_read_base R k (gz_st z) in
  ps = roots_pos E (i_pos (r_st R) s) rs /\
  relocatable k E m (g_out_mem (r_st R) contents B (gz_st z)) B (i_pos (r_st R) s) (i_pos (r_st R) (gz_st z)) rs
    (roots_words E (i_pos (r_st R) s) rs).
Proof.
  intros C K KP k E m HS HE HT fuel rs s ps z Hr Hrs Hp Hn Hg B.
  pose proof (C89_custom_impls_any_storage R inv contents empties C K KP k E m HS HE fuel rs s Hr Hrs Hp) as HH. rewrite Hg in HH.
  destruct HH as (H1 & H2 & _ & _ & H5). split; [exact H1|]. rewrite H2. eapply relocatable_intro; eassumption.
Qed.

(** The hand-written implementations of the program delegate no fields (a field delegated to is written out as the
    calls it makes). *)
Definition no_delegation {P : Params} (pg : program) (m : mem) : Prop :=
  (forall id h a, impl_for pg id = IHand h -> forallb no_fields (h m a) = true) /\
  (forall w t a, forallb no_fields (pr_with pg w t m a) = true).

Lemma no_fields_shift d ss : forallb no_fields (map (shift d) ss) = forallb no_fields ss.
Proof. induction ss as [|s ss IH]; [reflexivity|]. cbn [map forallb]. rewrite IH. destruct s; reflexivity. Qed.
Lemma no_fields_header {P : Params} vl dg cap len : forallb no_fields (header_calls vl dg cap len) = true.
Proof. unfold header_calls. destruct (cap =? len); [reflexivity|]. destruct (len =? 0); [|reflexivity]. destruct vl; reflexivity. Qed.
Lemma makes_no_fields {P : Params} {L : Lexer} pg m : no_delegation pg m ->
  (forall t a ss, makes pg m t a ss -> forallb no_fields ss = true) /\
  (forall t n off a ss, makes_elems pg m t n off a ss -> forallb no_fields ss = true) /\
  (forall fs cs a ss, makes_fields pg m fs cs a ss -> forallb no_fields ss = true).
Proof.
  intros [PP1 PP2].
  apply (makes_mind P pg m
    (fun t a ss _ => forallb no_fields ss = true)
    (fun t n off a ss _ => forallb no_fields ss = true)
    (fun fs cs a ss _ => forallb no_fields ss = true)); intros; rewrite ?forallb_app, ?no_fields_header, ?no_fields_shift; cbn [forallb andb no_fields];
    repeat match goal with HH : forallb no_fields _ = true |- _ => rewrite HH; clear HH end; auto.
  - eapply PP1. eassumption.
  - rewrite PP2. reflexivity.
Qed.

(** Whole programs, over any storage: the positions of the pointer words are determined by the values, and copied anywhere
    with those words adjusted the output is as good as where it was made. *)
Theorem C91_program {P : Params} {L : Lexer} {St} (R : ra_impl St) inv contents empties :
  cfg_ok -> keeps_contract (r_st R) inv contents empties -> reserve_keeps_pos (r_st R) inv ->
  forall pg k m sf f xs s ps z, let E := pr_env pg in
  storage_for k R inv contents -> lexer_ok -> wf_env E -> program_ok pg -> well_behaved pg m sf -> plain_program pg m ->
  no_delegation pg m -> tracking k = true ->
  ready (r_st R) inv s -> Forall (session_input E m f) xs ->
  g_mx_all R pg k m sf f (map place_of xs) (g_from_storage s) = Ok ps z ->
  let b := i_pos (r_st R) s in
  let len := i_pos (r_st R) (gz_st z) in
  let B := g_read_base R k (gz_st z) in
  let M := g_out_mem (r_st R) contents B (gz_st z) in
  exists rs, Forall2 (calls_of pg m) xs rs /\ ps = roots_pos E b rs /\
    relocatable k E m M B b len rs (roots_words E b rs).
Proof.
  intros C K KP pg k m sf f xs s ps z E HS LO HE PO WB PP ND HT Hr Hxs Hg b len B M.
  destruct (C90_mixed_any_storage R inv contents empties C K KP pg k m sf f xs s HS LO HE PO WB PP Hr Hxs) as (rs & R1 & R2 & R3).
  rewrite Hg in R3. destruct R3 as (H1 & H2 & _ & _ & H5). exists rs. ands; [exact R1|exact H1|].
  unfold len. rewrite H2. eapply relocatable_intro; [exact C|exact HT|exact R2| |exact H5].
  clear - R1 ND. induction R1 as [|[[t a] v] [[l a'] ss] xs rs Hc R1 IH]; constructor; [|exact IH].
  destruct Hc as (_ & -> & Hm). exact (proj1 (makes_no_fields pg m ND) t a ss Hm).
Qed.

(** The loader: copy the bytes, adjust the words (PropLoad.load). *)
Lemma load_moves {P : Params} M B B' len hs : cfg_ok -> B' + len < umod ->
  separate (words pW hs) -> (forall q, In q hs -> q + pW <= len /\ exists t, read_word M (B + q) = Some (B + t) /\ t <= len) ->
  moved_to M B (load M B B' len (map (N.add B) hs)) B' len hs.
Proof.
  intros C Hl Hs Hp.
  assert (Hin : forall p, In p (map (N.add B) hs) -> exists q, p = B + q /\ In q hs).
  { intros p Hx. apply in_map_iff in Hx. destruct Hx as (q & <- & Hq). exists q. auto. }
  split.
  - intros i Hi Hno. unfold load. rewrite load_miss.
    + unfold copied. replace ((B' <=? B' + i) && (B' + i <? B' + len)) with true by lia. f_equal. lia.
    + intros p Hx. destruct (Hin p Hx) as (q & -> & Hq). specialize (Hno q Hq). lia.
  - intros q x Hq Hx. unfold load. replace (B' + q) with (B' + (B + q - B)) by lia. apply load_hit; auto.
    + intros p Hy. destruct (Hin p Hy) as (q' & -> & _). lia.
    + unfold words. rewrite map_map.
      replace (map (fun x0 => (B + x0, pW)) hs) with (map (fun y => (B + fst y, snd y)) (words pW hs)).
      2:{ unfold words. rewrite map_map. reflexivity. }
      clear - Hs. induction Hs as [|y l Hy Hl IH]; cbn [map]; constructor; [|exact IH].
      apply Forall_map. eapply Forall_impl; [|exact Hy]. intros z Hz. unfold disjoint in *. cbn [fst snd] in *. lia.
    + intros p Hy. destruct (Hin p Hy) as (q' & -> & Hq'). destruct (Hp q' Hq') as (_ & t & T1 & T2). exists (B + t). split; [exact T1|lia].
    + apply in_map. exact Hq.
Qed.

(** Loaded anywhere, the values are there, turned as their implementations mean to. *)
Theorem C91_load {P : Params} {L : Lexer} {St} (R : ra_impl St) inv contents empties :
  cfg_ok -> keeps_contract (r_st R) inv contents empties -> reserve_keeps_pos (r_st R) inv ->
  forall pg by_hand by_proxy k m sf f xs s ps z B', let E := pr_env pg in
  storage_for k R inv contents -> lexer_ok -> wf_env E -> program_ok pg -> well_behaved pg m sf -> plain_program pg m ->
  no_delegation pg m -> all_achieve pg by_hand by_proxy k m -> tracking k = true ->
  ready (r_st R) inv s -> Forall (session_input E m f) xs ->
  g_mx_all R pg k m sf f (map place_of xs) (g_from_storage s) = Ok ps z ->
  let b := i_pos (r_st R) s in
  let len := i_pos (r_st R) (gz_st z) in
  let B := g_read_base R k (gz_st z) in
  let M := g_out_mem (r_st R) contents B (gz_st z) in
  0 < B' -> (MVA | B') -> B' + len < umod ->
  exists rs, Forall2 (calls_of pg m) xs rs /\
    Forall2 (fun x p => exists v', turns pg by_hand by_proxy (fst (fst x)) (snd x) v' /\
      repr E any_header (load M B B' len (map (N.add B) (roots_words E b rs))) (fst (fst x)) (B' + p) v') xs ps.
Proof.
  intros C K KP pg bh bp k m sf f xs s ps z B' E HS LO HE PO WB PP ND HA HT Hr Hxs Hg b len B M D1 D2 D3.
  destruct (C91_program R inv contents empties C K KP pg k m sf f xs s ps z HS LO HE PO WB PP ND HT Hr Hxs Hg) as (rs & R1 & R2 & R3 & R4 & R5).
  fold b len B M E in R2, R3, R4, R5. exists rs. split; [exact R1|].
  pose proof (load_moves M B B' len (roots_words E b rs) C D3 R3 (fun q Hq => proj2 (R4 q Hq))) as HM.
  specialize (R5 _ B' D1 D2 ltac:(lia) HM). clear HM R3 R4. set (M' := load M B B' len (map (N.add B) (roots_words E b rs))) in *. clearbody M'.
  rewrite R2. clear R2 Hg Hr. clearbody b. revert b R5.
  induction R1 as [|[[t a] v] [[l a'] ss] xs' rs' Hc R1 IH]; intros cur RG; [constructor|].
  destruct Hc as (-> & -> & Hm). inversion Hxs as [|? ? Hx Hxs']; subst. destruct Hx as ((Hw & Ha & Hv) & Hs & Hf).
  cbn [roots_pos regions] in *. destruct RG as [RG1 RG2]. constructor; [|apply IH; assumption].
  destruct (proj1 (valid pg bh bp k m sf C HE LO PO WB HA HT M' B') t a v Hv Hw Ha) as [G _]. exact (G ss _ _ Hm RG1).
Qed.

(** ** The output of C90_witness moved to 32768: the calls, the positions of the words, and what is there after loading. *)
From Coq Require Import String.
From Verif Require Import PropStorage PropSerialize Demo WitnessSerialize WitnessDerive.
#[local] Existing Instance ascii_lexer.
Definition outer_calls (off q1 q2 : N) : list step :=
  [SPushPlain (off + 8) u64_layout q1 1; SPush (off + 16) u64_layout q2 1 [SOver 0 u64_layout (bytes_src (w64 99))]].
Definition reloc_calls : layout * N * list step :=
  (mkLayout 24 8, 4096,
   [SOver 0 (usize_layout (P := demo)) (word_src (P := demo) 2);
    SPush 8 (mkLayout 24 8) 8192 2 (outer_calls 0 12288 12296 ++ outer_calls 24 12304 12312)]).
Definition reloc_words : list N := [16; 40; 48; 64; 72; 120; 144; 152; 168; 176].

Theorem C91_witness :
  Forall2 (calls_of (P := demo) mixed_prog mixed_mem) gm_inputs [reloc_calls; reloc_calls] /\
  no_delegation (P := demo) mixed_prog mixed_mem /\
  all_achieve (P := demo) mixed_prog to_99 (fun _ _ => eq) Complete mixed_mem /\
  roots_words (P := demo) mixed_env 8 [reloc_calls; reloc_calls] = reloc_words /\
  0 < 32768 /\ (@MVA demo | 32768) /\
  (forall k, k = PtrOffset \/ k = Complete ->
   match @g_mx_all demo _ _ gs_storage mixed_prog k mixed_mem 0 10 (map place_of gm_inputs) (g_from_storage (mkFixed 8 no_mem)) with
   | Ok ps z => ps = [8; 112] /\
       let B := g_read_base gs_storage k (gz_st z) in
       let M' := @load demo (g_out_mem (r_st gs_storage) fx_buf B (gz_st z)) B 32768 216 (map (N.add B) reloc_words) in
       B = match k with Complete => 1048576 | _ => 0 end /\
       map (fun i => @read_word demo M' (32768 + 8 + 8 * N.of_nat i)) [0;1;2;3;4;5;6;7;8;9;10;11;12;13;14]%nat =
       map Some match k with
                | Complete => [2; 32768 + 32; 2; 11; 32768 + 80; 32768 + 88; 12; 32768 + 96; 32768 + 104; 21; 99; 22; 99; 2; 32768 + 136]
                | _ => [3; 32768 + 32; 2; 11; 32768 + 80; 32768 + 88; 12; 32768 + 96; 32768 + 104; 21; 31; 22; 32; 3; 32768 + 136]
                end
   | _ => False end).
Proof.
  assert (HO : forall a q1 q2, @read_word demo mixed_mem (a + 8) = Some q1 -> @read_word demo mixed_mem (a + 16) = Some q2 ->
     makes (P := demo) mixed_prog mixed_mem (TNamed 0) a (outer_calls 0 q1 q2)).
  { intros a q1 q2 H1 H2. eapply (K_derived (P := demo)) with (dfs := FNamed _) (cs := [CSerialize; CWith (path_ "Proxy"); CSerialize]);
      [unfold impl_for; reflexivity|reflexivity|reflexivity| |].
    - constructor; [constructor; intros ? []|]. constructor; [constructor|constructor; [constructor; intros ? []|constructor]].
      exists [doc_attr], (ser_with_attr (path_ "Proxy")), [], (path_ "ser_with").
      ands; try reflexivity. intros b [<-|[]]. vm_compute. discriminate.
    - change (outer_calls 0 q1 q2) with (map (shift 0) [] ++ ((map (shift 8) [SPushPlain 0 u64_layout q1 1]) ++
        (map (shift 16) [SPush 0 u64_layout q2 1 [SOver 0 u64_layout (bytes_src (w64 99))]] ++ []))).
      apply KF_own; [apply (K_prim (P := demo))|].
      assert (X : pr_with mixed_prog (path_ "Proxy") (TBox t_u64) mixed_mem (a + 8) = [SPushPlain 0 u64_layout q1 1]).
      { cbn [pr_with mixed_prog]. unfold proxy_impl. rewrite H1. reflexivity. }
      rewrite <- X. apply KF_with. apply KF_own; [|constructor].
      assert (Y : hand_impl mixed_mem (a + 16) = [SPush 0 u64_layout q2 1 [SOver 0 u64_layout (bytes_src (w64 99))]]).
      { unfold hand_impl. rewrite H2. reflexivity. }
      rewrite <- Y. apply (K_hand (P := demo)). unfold impl_for. reflexivity. }
  assert (HC : calls_of (P := demo) mixed_prog mixed_mem (TVec CPL (TNamed 0), 4096, mixed_val) reloc_calls).
  { split; [reflexivity|]. split; [reflexivity|].
    refine (K_vec (P := demo) mixed_prog mixed_mem CPL (TNamed 0) 4096 8192 3 2 _ _ _ _ _ _ _); [discriminate|vm_compute; reflexivity|vm_compute; reflexivity|vm_compute; reflexivity|discriminate|].
    change (N.to_nat 2) with 2%nat.
    change (outer_calls 0 12288 12296 ++ outer_calls 24 12304 12312) with
      (map (shift 0) (outer_calls 0 12288 12296) ++ (map (shift 24) (outer_calls 0 12304 12312) ++ [])).
    apply (KE_cons (P := demo)); [apply HO; vm_compute; reflexivity|].
    change (0 + size_of (pr_env mixed_prog) (TNamed 0)) with 24.
    apply (KE_cons (P := demo)); [apply HO; vm_compute; reflexivity|apply (KE_nil (P := demo))]. }
  split; [repeat (constructor; [exact HC|]); constructor|]. split; [|split; [exact C80_hypotheses|]].
  - split.
    + intros [|[|id]] h a H; unfold impl_for in H; cbn in H; try discriminate. injection H as <-. unfold hand_impl. destruct (read_word _ _); reflexivity.
    + intros w t a. cbn [pr_with mixed_prog]. unfold proxy_impl. destruct (read_word _ _); reflexivity.
  - split; [vm_compute; reflexivity|]. split; [reflexivity|]. split; [exists 2048; reflexivity|].
    intros k [->| ->]; vm_compute; repeat split.
Qed.
