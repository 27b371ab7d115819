(** * PropDefaults: the const parameters left out (C60). *)
From Verif Require Import Base Types Storage Defaults Spec ArithFacts StorageFacts StorageProps PropStorage.
From Coq Require Import ZifyBool ZifyNat ZifyN.
Local Open Scope N_scope.

Section Defaults.
Context {P : Params}.

Definition params (sa mva va maxc : N) : Params :=
  {| pW := pW; pBE := pBE; dbg := dbg; orc := orc; SA := sa; MVA := mva; VA := va; MAXC := maxc |}.
Definition dmax : N := imax - 15.

Lemma imax_vals : machine_ok -> imax = 2147483647 \/ imax = 9223372036854775807.
Proof. unfold imax. intros [H|H]; rewrite H; [left|right]; reflexivity. Qed.

Lemma amc16 : machine_ok -> @aligned_max_capacity P unit 16 tt = Ok dmax tt.
Proof.
  intros H. rewrite (amc_ok (P:=P)).
  - reflexivity.
  - exact H.
  - exists 4; reflexivity.
  - pose proof (imax_vals H). lia.
Qed.

Lemma pow2_small x : pow2 x -> x <= 16 -> x = 1 \/ x = 2 \/ x = 4 \/ x = 8 \/ x = 16.
Proof.
  intros [k ->] H.
  assert (k <= 4) by (apply (N.pow_le_mono_r_iff 2); [lia|exact H]).
  assert (k = 0 \/ k = 1 \/ k = 2 \/ k = 3 \/ k = 4) as [->|[->|[->|[->| ->]]]] by lia; cbn; auto 6.
Qed.

Lemma pow2_big x : pow2 x -> 16 < x -> (32 | x).
Proof.
  intros [k ->] H.
  assert (4 < k) by (apply (N.pow_lt_mono_r_iff 2); [lia|exact H]).
  exists (2 ^ (k - 5)). change 32 with (2 ^ 5). rewrite <- N.pow_add_r. f_equal. lia.
Qed.

Lemma default_ok sa mva va : machine_ok ->
  (@consts_ok (params sa mva va dmax) <-> pow2 sa /\ pow2 mva /\ pow2 va /\ va <= mva /\ mva <= sa /\ sa <= 16).
Proof.
  intros HM. pose proof (imax_vals HM) as HI. unfold consts_ok, legal_layout. cbn [params SA MVA VA MAXC].
  change (@imax (params sa mva va dmax)) with (@imax P). unfold dmax. split.
  - intros (H1 & H2 & H3 & H4 & H5 & H6 & H7 & H8 & H9). ands; auto.
    destruct (N.le_gt_cases sa 16) as [|Hs]; [assumption|exfalso].
    pose proof (pow2_pos sa H1).
    pose proof (pow2_big sa H1 Hs) as [q Hq].
    pose proof (round_up_ge (imax - 15) sa ltac:(lia)) as Hge.
    pose proof (round_up_divide (imax - 15) sa) as [r Hr].
    rewrite Hr in *. rewrite Hq in *. clear - HI Hge H9.
    rewrite N.mul_assoc in *. revert Hge H9. generalize (r * q). intros x. lia.
  - intros (H1 & H2 & H3 & H4 & H5 & H6). pose proof (pow2_pos mva H2). pose proof (pow2_pos sa H1).
    ands; auto; try lia.
    + assert (mva <= 16) as Hm by lia. destruct (pow2_small mva H2 Hm) as [->|[->|[->|[->| ->]]]];
      destruct HI as [-> | ->]; (apply N.mod_divide; [discriminate|reflexivity]).
    + destruct (pow2_small sa H1 H6) as [->|[->|[->|[->| ->]]]];
      destruct HI as [-> | ->]; vm_compute; discriminate.
Qed.

Lemma compiles_iff sa mva va args : machine_ok -> sa < umod ->
  @instantiate P args tt = Ok (Some (params sa mva va dmax)) tt ->
  compiles args = true <-> @consts_ok (params sa mva va dmax).
Proof.
  intros HM Hs E. unfold compiles. rewrite E.
  destruct (@valid_iff (params sa mva va dmax) unit tt HM Hs) as [A B]. split.
  - intros H. apply A. destruct (@assert_alignments_valid (params sa mva va dmax) unit tt) as [[] []|? ?| | |]; try discriminate.
    reflexivity.
  - intros H. apply A in H. rewrite H. reflexivity.
Qed.

Lemma pow2_W : machine_ok -> pow2 pW.
Proof. intros [-> | ->]; [exists 2|exists 3]; reflexivity. Qed.

(** ** C60 *)

(** [AlignedVec] with no arguments compiles everywhere, with STORAGE_ALIGNMENT and
    MAX_VALUE_ALIGNMENT 16, VALUE_ALIGNMENT the size of a pointer and the largest
    MAX_CAPACITY any storage of that alignment can have. *)
Theorem C60_defaults : machine_ok ->
  exists Q, instantiate [] tt = Ok (Some Q) tt /\ compiles [] = true /\ @cfg_ok Q /\
    @pW Q = pW /\ @pBE Q = pBE /\ @dbg Q = dbg /\
    @SA Q = 16 /\ @MVA Q = 16 /\ @VA Q = pW /\
    legal_layout (@MAXC Q) 16 /\ (forall c, legal_layout c 16 -> c <= @MAXC Q).
Proof.
  intros HM. exists (params 16 16 pW dmax).
  pose proof (pow2_W HM) as HW. assert (pow2 16) by (exists 4; reflexivity).
  assert (HE : instantiate [] tt = Ok (Some (params 16 16 pW dmax)) tt).
  { unfold instantiate. erewrite bind_ok by (apply amc16; exact HM). reflexivity. }
  assert (Hc : @consts_ok (params 16 16 pW dmax)).
  { apply default_ok; [exact HM|]. pose proof HM as [Hw|Hw]; ands; auto; lia. }
  assert (H16 : 16 < umod) by (unfold umod; destruct HM as [-> | ->]; reflexivity).
  split; [exact HE|]. split; [apply (compiles_iff 16 16 pW); assumption|].
  split; [split; [exact HM|exact Hc]|]. do 6 (split; [reflexivity|]).
  change (@MAXC (params 16 16 pW dmax)) with dmax.
  pose proof (C03_aligned_max_capacity unit tt 16 HM H16) as H3. rewrite amc16 in H3 by exact HM.
  destruct H3 as (_ & _ & _ & _ & H3 & H4). split; [exact H3|exact H4].
Qed.

(** Some of the parameters given, MAX_CAPACITY left out: an alignment above 16 does not
    compile, every documented choice up to 16 does. *)
Theorem C60_given : machine_ok ->
  (forall a, a < umod -> (compiles [a] = true <-> pow2 a /\ pW <= a /\ a <= 16)) /\
  (forall a b, a < umod -> (compiles [a; b] = true <-> pow2 a /\ pow2 b /\ pW <= b /\ b <= a /\ a <= 16)) /\
  (forall a b c, a < umod ->
    (compiles [a; b; c] = true <-> pow2 a /\ pow2 b /\ pow2 c /\ c <= b /\ b <= a /\ a <= 16)).
Proof.
  intros HM. pose proof (pow2_W HM) as HW.
  assert (HE : forall l, instantiate l tt =
     Ok (match l with
         | [] => Some (params 16 16 pW dmax)
         | [a] => Some (params a a pW dmax)
         | [a; b] => Some (params a b pW dmax)
         | [a; b; c] => Some (params a b c dmax)
         | [a; b; c; d] => Some (params a b c d)
         | _ => None end) tt).
  { intros l. unfold instantiate. erewrite bind_ok by (apply amc16; exact HM).
    destruct l as [|? [|? [|? [|? [|? ?]]]]]; reflexivity. }
  ands.
  - intros a Ha. rewrite (compiles_iff a a pW) by (try apply HE; assumption). rewrite default_ok by exact HM. tauto || (intuition; lia).
  - intros a b Ha. rewrite (compiles_iff a b pW) by (try apply HE; assumption). rewrite default_ok by exact HM. tauto.
  - intros a b c Ha. rewrite (compiles_iff a b c) by (try apply HE; assumption). rewrite default_ok by exact HM. tauto.
Qed.

(** All four given: exactly the documented choices. *)
Theorem C60_all : forall a b c d, machine_ok -> a < umod ->
  (compiles [a; b; c; d] = true <-> @consts_ok (params a b c d)).
Proof.
  intros a b c d HM Ha. unfold compiles, instantiate. erewrite bind_ok by (apply amc16; exact HM). cbn [ret].
  destruct (@valid_iff (params a b c d) unit tt HM Ha) as [A B]. split.
  - intros H. apply A. unfold ret in H.
    change {| pW := pW; pBE := pBE; dbg := dbg; SA := a; MVA := b; VA := c; MAXC := d; orc := orc |} with (params a b c d) in H.
    destruct (@assert_alignments_valid (params a b c d) unit tt) as [[] []|? ?| | |]; try discriminate.
    reflexivity.
  - intros H. apply A in H. unfold ret. fold (params a b c d). unfold params in *. rewrite H. reflexivity.
Qed.

(** A fifth argument is refused. *)
Theorem C60_too_many : forall args, machine_ok -> (4 < length args)%nat -> compiles args = false.
Proof.
  intros args HM Hl. unfold compiles, instantiate. erewrite bind_ok by (apply amc16; exact HM).
  destruct args as [|? [|? [|? [|? [|? ?]]]]]; cbn in Hl; try lia. reflexivity.
Qed.
End Defaults.

(** [AlignedVec<32>] does not compile; AlignedVec<32, 32, 8, { aligned_max_capacity(32) }> does. *)
Example C60_witness :
  @compiles demo [8] = true /\ @compiles demo [4] = false /\ @compiles demo [32] = false /\
  @compiles demo [16; 8] = true /\ @compiles demo [16; 16; 1] = true /\
  @aligned_max_capacity demo unit 32 tt = Ok 9223372036854775776 tt /\
  @compiles demo [32; 32; 8; 9223372036854775776] = true /\ @compiles demo32 [4] = true.
Proof. vm_compute. repeat split. Qed.
