(** * PropGenMixed: property C90 (mixed programs over any storage). *)
From Coq Require Import Arith.
From Verif Require Import Base Types Storage Serializer Serialize Client Spec ClientSpec ArithFacts TypeFacts SerMain SerRoot SerProps
  ClientFacts PropClient Derive DeriveSpec DeriveFacts Mixed MixedFacts PropMixed MixedValid PropMixedValue PropMixedSession
  MixedDecode PropMixedDecode
  GenStorage GenSpec GenFacts PropGen GenSerializer GenSerSpec GenSerAV GenSerFacts GenSerRoot PropGenSer
  GenClient GenClientSpec GenClientFacts PropGenClient GenMixed GenMixedFacts.
From Coq Require Import ZifyBool ZifyNat ZifyN.
Local Open Scope N_scope.

(** In any program, over any storage, serializing values makes exactly the calls [makes] says. *)
Theorem C90_calls {P : Params} {L : Lexer} {St} (R : ra_impl St) : forall pg k m sf f xs,
  let E := pr_env pg in
  cfg_ok -> lexer_ok -> wf_env E -> program_ok pg -> well_behaved pg m sf -> plain_program pg m ->
  Forall (session_input E m f) xs ->
  exists rs, Forall2 (calls_of pg m) xs rs /\ Forall (root_in E m sf) rs /\ Forall root_plain rs /\
    (forall z, g_mx_all R pg k m sf f (map place_of xs) z = g_client_all R k E m sf rs z).
Proof.
  intros pg k m sf f xs E C LO HE PO WB PP Hxs.
  assert (X : exists rs, Forall2 (calls_of pg m) xs rs /\ Forall (root_in E m sf) rs /\ Forall root_plain rs /\
            forall z, g_mx_values R pg k m sf f (map place_of xs) z = g_client_values R k E m sf rs z).
  { induction xs as [|[[t a] v] xs IH].
    - exists []. ands; constructor.
    - inversion Hxs as [|x y H1 H2]; subst. destruct H1 as (Hv & Hs & Hf). destruct (IH H2) as (rs & I1 & I2 & I4 & I3).
      destruct (C79_calls pg k m sf t a v C LO HE PO WB Hv) as (ss & K1 & _ & K2 & _).
      destruct Hv as (Hw & Ha & Hr).
      pose proof (proj1 (proj1 (g_main R pg k m sf C HE LO PO) t a v Hr Hw Ha) ss K1 f Hf) as K3.
      exists ((layout_of E t, a, ss) :: rs). ands.
      + constructor; [|exact I1]. cbn. auto.
      + constructor; [|exact I2]. unfold root_in. ands; [exact (wf_good C E HE t Hw)|exact Hs|exact Ha|exact K2].
      + constructor; [|exact I4]. exact (proj1 (makes_plain pg m PP) t a ss K1).
      + cbn [map place_of fst g_mx_values g_client_values]. apply geq_bind; [apply geq_svw; exact K3|intros p].
        apply geq_bind; [exact I3|intros; apply geq_refl]. }
  destruct X as (rs & X1 & X2 & X4 & X3). exists rs. ands; auto. intros z. unfold g_mx_all, g_client_all. apply geq_bind; [exact X3|intros; apply geq_refl].
Qed.

(** The output has every value's image, one after the other. *)
Theorem C90_mixed_any_storage {P : Params} {L : Lexer} {St} (R : ra_impl St) inv contents empties :
  cfg_ok -> keeps_contract (r_st R) inv contents empties -> reserve_keeps_pos (r_st R) inv ->
  forall pg k m sf f xs s, let E := pr_env pg in
  storage_for k R inv contents -> lexer_ok -> wf_env E -> program_ok pg -> well_behaved pg m sf -> plain_program pg m ->
  ready (r_st R) inv s -> Forall (session_input E m f) xs ->
  exists rs, Forall2 (calls_of pg m) xs rs /\ Forall (root_in E m sf) rs /\
    match g_mx_all R pg k m sf f (map place_of xs) (g_from_storage s) with
    | Ok ps z =>
        let s' := gz_st z in
        let B := g_read_base R k s' in
        ps = roots_pos E (i_pos (r_st R) s) rs /\
        i_pos (r_st R) s' = roots_end E (i_pos (r_st R) s) rs /\
        ready (r_st R) inv s' /\
        same_below (i_pos (r_st R) s) (contents s') (contents s) /\
        regions k E m (g_out_mem (r_st R) contents B s') B (i_pos (r_st R) s) rs
    | Panic e z =>
        refused_within (r_st R) inv (i_pos (r_st R) s) (roots_end E (i_pos (r_st R) s) rs) e /\
        ready (r_st R) inv (gz_st z) /\
        i_pos (r_st R) s <= i_pos (r_st R) (gz_st z) /\
        same_below (i_pos (r_st R) s) (contents (gz_st z)) (contents s)
    | Abort => True
    | UB | OutOfFuel => False
    end.
Proof.
  intros C K KP pg k m sf f xs s E HS LO HE PO WB PP Hr Hxs.
  destruct (C90_calls R pg k m sf f xs C LO HE PO WB PP Hxs) as (rs & R1 & R2 & R3 & R4).
  exists rs. ands; auto. rewrite R4.
  exact (C89_custom_impls_any_storage R inv contents empties C K KP k E m HS HE sf rs s Hr R2 R3).
Qed.

(** What the images mean: pointer-writing serializers leave every value, turned as its implementations mean to, at the
    position returned for it. *)
Theorem C90_values {P : Params} {L : Lexer} {St} (R : ra_impl St) inv contents empties :
  cfg_ok -> keeps_contract (r_st R) inv contents empties -> reserve_keeps_pos (r_st R) inv ->
  forall pg by_hand by_proxy k m sf f xs s ps z, let E := pr_env pg in
  storage_for k R inv contents -> lexer_ok -> wf_env E -> program_ok pg -> well_behaved pg m sf -> plain_program pg m ->
  all_achieve pg by_hand by_proxy k m -> tracking k = true ->
  ready (r_st R) inv s -> Forall (session_input E m f) xs ->
  g_mx_all R pg k m sf f (map place_of xs) (g_from_storage s) = Ok ps z ->
  Forall2 (fun x p => exists v', turns pg by_hand by_proxy (fst (fst x)) (snd x) v' /\
      let B := g_read_base R k (gz_st z) in
      repr E any_header (g_out_mem (r_st R) contents B (gz_st z)) (fst (fst x)) (B + p) v') xs ps.
Proof.
  intros C K KP pg bh bp k m sf f xs s ps z E HS LO HE PO WB PP HA HT Hr Hxs Hg.
  destruct (C90_mixed_any_storage R inv contents empties C K KP pg k m sf f xs s HS LO HE PO WB PP Hr Hxs) as (rs & R1 & R2 & R3).
  rewrite Hg in R3. destruct R3 as (-> & _ & _ & _ & RG). fold E in RG |- *. cbv zeta. cbv zeta in RG. set (B := g_read_base R k (gz_st z)) in *.
  set (Mo := g_out_mem (r_st R) contents B (gz_st z)) in *. clearbody B Mo. clear Hg Hr. generalize dependent (i_pos (r_st R) s).
  induction R1 as [|[[t a] v] [[l a'] ss] xs' rs' Hc R1 IH]; intros cur RG; [constructor|].
  destruct Hc as (-> & -> & Hm). inversion R2 as [|? ? _ R2']; subst. inversion Hxs as [|? ? Hx Hxs']; subst. destruct Hx as ((Hw & Ha & Hv) & Hs & Hf).
  cbn [roots_pos regions] in *. destruct RG as [RG1 RG2]. constructor; [|apply IH; assumption].
  destruct (proj1 (valid pg bh bp k m sf C HE LO PO WB HA HT Mo B) t a v Hv Hw Ha) as [G _]. exact (G ss _ _ Hm RG1).
Qed.

(** The others leave it where the readers of C87 find it. *)
Theorem C90_values_read {P : Params} {L : Lexer} {St} (R : ra_impl St) inv contents empties :
  cfg_ok -> keeps_contract (r_st R) inv contents empties -> reserve_keeps_pos (r_st R) inv ->
  forall pg by_hand by_proxy by_type by_path plan k m sf f xs s ps z, let E := pr_env pg in
  storage_for k R inv contents -> lexer_ok -> wf_env E -> program_ok pg -> well_behaved pg m sf -> plain_program pg m ->
  plan_ok pg plan -> all_read_back pg by_hand by_proxy by_type by_path k m -> tracking k = false ->
  ready (r_st R) inv s -> Forall (session_input E m f) xs ->
  g_mx_all R pg k m sf f (map place_of xs) (g_from_storage s) = Ok ps z ->
  Forall2 (fun x p => exists v', turns pg by_hand by_proxy (fst (fst x)) (snd x) v' /\
      forall f', (vdepth (snd x) < f')%nat ->
        mx_decode_root pg by_type by_path plan (g_out_mem (r_st R) contents 0 (gz_st z)) f' (fst (fst x)) p = Some v') xs ps.
Proof.
  intros C K KP pg bh bp bt bpa plan k m sf f xs s ps z E HS LO HE PO WB PP HP HA HT Hr Hxs Hg.
  destruct (C90_mixed_any_storage R inv contents empties C K KP pg k m sf f xs s HS LO HE PO WB PP Hr Hxs) as (rs & R1 & R2 & R3).
  rewrite Hg in R3. destruct R3 as (-> & _ & _ & _ & RG). fold E in RG |- *.
  assert (RB : g_read_base R k (gz_st z) = 0) by (destruct k; try reflexivity; discriminate HT). rewrite RB in RG.
  set (Mo := g_out_mem (r_st R) contents 0 (gz_st z)) in *. clearbody Mo. clear Hg Hr RB. generalize dependent (i_pos (r_st R) s).
  induction R1 as [|[[t a] v] [[l a'] ss] xs' rs' Hc R1 IH]; intros cur RG; [constructor|].
  destruct Hc as (-> & -> & Hm). inversion R2 as [|? ? _ R2']; subst. inversion Hxs as [|? ? Hx Hxs']; subst. destruct Hx as (Hv & Hs & Hf).
  cbn [roots_pos regions] in *. destruct RG as [RG1 RG2]. constructor; [|apply IH; assumption].
  exact (read_root pg bh bp bt bpa plan k m sf t a v ss _ _ C LO HE PO WB HP HA HT Hv Hm RG1).
Qed.

(** Over AlignedVec this is the code of C79. *)
Theorem C90_aligned_vec {P : Params} {L : Lexer} : forall pg k m sf t a v f s,
  let E := pr_env pg in
  cfg_ok -> lexer_ok -> wf_env E -> program_ok pg -> well_behaved pg m sf ->
  valid_input E any_header m t a v -> (vdepth v < f)%nat ->
  match g_mx_serialize aligned_vec_ra pg k m sf f t a (g_from_storage s) with
  | Ok p z => mx_serialize pg k m sf f t a (from_storage s) = Ok p (to_zs z)
  | Panic e z => mx_serialize pg k m sf f t a (from_storage s) = Panic e (to_zs z)
  | Abort => mx_serialize pg k m sf f t a (from_storage s) = Abort
  | UB => mx_serialize pg k m sf f t a (from_storage s) = UB
  | OutOfFuel => mx_serialize pg k m sf f t a (from_storage s) = OutOfFuel
  end.
Proof.
  intros pg k m sf t a v f s E C LO HE PO WB Hv Hf.
  destruct (C79_calls pg k m sf t a v C LO HE PO WB Hv) as (ss & K1 & _ & K2 & K3). destruct Hv as (Hw & Ha & Hr).
  pose proof (proj1 (proj1 (g_main aligned_vec_ra pg k m sf C HE LO PO) t a v Hr Hw Ha) ss K1 f Hf) as K4.
  destruct (K3 f (from_storage s) Hf) as (_ & _ & ->).
  assert (K5 : g_mx_serialize aligned_vec_ra pg k m sf f t a (g_from_storage s) = g_client_serialize aligned_vec_ra k E m sf (layout_of E t) a ss (g_from_storage s)).
  { unfold g_mx_serialize, g_client_serialize. apply geq_bind; [apply geq_svw; exact K4|intros; apply geq_refl]. }
  rewrite K5. apply C89_aligned_vec.
Qed.

(** ** The program of C79, over a storage that is not AlignedVec and whose block moves on the way: the Vec<Outer> twice. *)
From Coq Require Import String.
From Verif Require Import PropStorage PropSerialize Demo WitnessSerialize WitnessDerive.
#[local] Existing Instance ascii_lexer.
Definition gm_inputs : list (ty * N * val) := [(TVec CPL (TNamed 0), 4096, mixed_val); (TVec CPL (TNamed 0), 4096, mixed_val)].
Theorem C90_witness :
  @keeps_contract demo _ (r_st gs_storage) (fixed_inv 4096) fx_buf true /\
  @reserve_keeps_pos demo _ (r_st gs_storage) (fixed_inv 4096) /\
  (forall k, @storage_for demo _ k gs_storage (fixed_inv 4096) fx_buf) /\
  @ready demo _ (r_st gs_storage) (fixed_inv 4096) (mkFixed 8 no_mem) /\
  plain_program (P := demo) mixed_prog mixed_mem /\
  Forall (@session_input demo mixed_env mixed_mem 10) gm_inputs /\
  r_as_ptr gs_storage (mkFixed 8 no_mem) = 65536 /\
  (forall k, match @g_mx_all demo _ _ gs_storage mixed_prog k mixed_mem 0 10 (map place_of gm_inputs) (g_from_storage (mkFixed 8 no_mem)) with
   | Ok ps z => ps = [8; 112] /\ fx_pos (gz_st z) = 216 /\
       let rd i := @read_word demo (fx_buf (gz_st z)) (8 + 8 * N.of_nat i) in
       map rd [0;1;2;3;4;5;6;7;8;9;10;11;12;13;14;15]%nat =
       (let b := r_as_ptr gs_storage (gz_st z) in
       match k with
       | Complete => map Some [2; b + 32; 2; 11; b + 80; b + 88; 12; b + 96; b + 104; 21; 99; 22; 99; 2; b + 136; 2]
       | PtrOffset => map Some [3; 32; 2; 11; 80; 88; 12; 96; 104; 21; 31; 22; 32; 3; 136; 2]
       | _ => map Some [3; 8192; 2; 11; 12288; 12296; 12; 12304; 12312; 21; 31; 22; 32; 3; 8192; 2]
       end) /\ (k = Complete -> r_as_ptr gs_storage (gz_st z) = 1048576)
   | _ => False end).
Proof.
  pose proof any_storage_serialize_witness as (W1 & W2 & W3 & W4 & _ & W6 & _).
  split; [exact W1|]. split; [exact W2|]. split; [exact W3|]. split; [exact W4|]. split; [|split; [|split; [exact W6|]]].
  - split.
    + intros [|[|id]] h a H; unfold impl_for in H; cbn in H; try discriminate. injection H as <-. unfold hand_impl. destruct (read_word _ _); reflexivity.
    + intros w t a. cbn [pr_with mixed_prog]. unfold proxy_impl. destruct (read_word _ _); reflexivity.
  - pose proof C79_hypotheses as HH.
    assert (Hx : @session_input demo mixed_env mixed_mem 10 (TVec CPL (TNamed 0), 4096, mixed_val)).
    { split; [apply HH|]. split; [vm_compute; reflexivity|vm_compute; repeat constructor]. }
    constructor; [exact Hx|]. constructor; [exact Hx|constructor].
  - intros k; destruct k; vm_compute; repeat split; intros; try discriminate; reflexivity.
Qed.
