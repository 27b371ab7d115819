(** * ArithFacts: powers of two, rounding, machine arithmetic. *)
From Verif Require Import Base Types Storage Spec.
From Coq Require Import ZifyBool ZifyNat ZifyN.
Local Open Scope N_scope.

Ltac ands := repeat match goal with |- _ /\ _ => split end.

Lemma pow2_pos a : pow2 a -> 0 < a.
Proof. intros [k ->]. apply N.neq_0_lt_0, N.pow_nonzero; lia. Qed.

Lemma pow2_divide a b : pow2 a -> pow2 b -> a <= b -> (a | b).
Proof.
  intros [j ->] [k ->] H.
  assert (j <= k) by (apply (N.pow_le_mono_r_iff 2); [lia|exact H]).
  exists (2 ^ (k - j)). rewrite <- N.pow_add_r. f_equal; lia.
Qed.

Lemma pow2_2pow k : pow2 (2 ^ k).
Proof. exists k; reflexivity. Qed.

Lemma pow2_1 : pow2 1.
Proof. exists 0; reflexivity. Qed.

Lemma pow2_max a b : pow2 a -> pow2 b -> pow2 (N.max a b).
Proof. intros Ha Hb. destruct (N.max_spec a b) as [[_ ->]|[_ ->]]; auto. Qed.

Lemma is_pow2_spec n : is_pow2 n = true <-> pow2 n.
Proof.
  unfold is_pow2. rewrite andb_true_iff, N.ltb_lt, N.eqb_eq. split.
  - intros [_ H]. exists (N.log2 n); exact H.
  - intros [k ->]. split.
    + apply pow2_pos, pow2_2pow.
    + rewrite N.log2_pow2 by lia. reflexivity.
Qed.

Lemma divide_mod a b : a <> 0 -> (a | b) <-> b mod a = 0.
Proof. intros H. symmetry. apply N.mod_divide; exact H. Qed.

Lemma mod_eqb_divide a b : a <> 0 -> (b mod a =? 0) = true <-> (a | b).
Proof. intros H. rewrite N.eqb_eq. apply N.mod_divide; exact H. Qed.

Lemma divide_trans a b c : (a | b) -> (b | c) -> (a | c).
Proof. apply N.divide_trans. Qed.

Lemma divide_le_pos a b : (a | b) -> 0 < b -> a <= b.
Proof. intros H Hb. apply N.divide_pos_le; assumption. Qed.

(** ** round_up *)
Lemma round_up_divide p a : (a | round_up p a).
Proof. exists ((p + a - 1) / a). reflexivity. Qed.

Lemma round_up_ge p a : 0 < a -> p <= round_up p a.
Proof.
  intros Ha. unfold round_up.
  pose proof (N.div_mod (p + a - 1) a ltac:(lia)) as E.
  pose proof (N.mod_lt (p + a - 1) a ltac:(lia)). lia.
Qed.

Lemma round_up_lt p a : 0 < a -> round_up p a < p + a.
Proof.
  intros Ha. unfold round_up.
  pose proof (N.div_mod (p + a - 1) a ltac:(lia)) as E.
  pose proof (N.mod_lt (p + a - 1) a ltac:(lia)). lia.
Qed.

Lemma round_up_least p a r : 0 < a -> (a | r) -> p <= r -> round_up p a <= r.
Proof.
  intros Ha Hr Hp.
  destruct Hr as [q ->].
  unfold round_up. apply N.mul_le_mono_r.
  assert ((p + a - 1) / a < q + 1); [|lia].
  apply N.div_lt_upper_bound; [lia|]. lia.
Qed.

Lemma round_up_spec p a : 0 < a -> least_multiple p a (round_up p a).
Proof.
  intros Ha. split; [apply round_up_divide|split].
  - apply round_up_ge; exact Ha.
  - intros r' H1 H2. apply round_up_least; assumption.
Qed.

Lemma least_multiple_unique p a r1 r2 :
  least_multiple p a r1 -> least_multiple p a r2 -> r1 = r2.
Proof.
  intros (A1 & B1 & C1) (A2 & B2 & C2).
  apply N.le_antisymm; [apply C1|apply C2]; assumption.
Qed.

Lemma round_up_id p a : 0 < a -> (a | p) -> round_up p a = p.
Proof.
  intros Ha Hp. apply N.le_antisymm.
  - apply round_up_least; auto. lia.
  - apply round_up_ge; exact Ha.
Qed.

Lemma round_up_mono p q a : 0 < a -> p <= q -> round_up p a <= round_up q a.
Proof.
  intros Ha Hpq. apply round_up_least; [exact Ha|apply round_up_divide|].
  pose proof (round_up_ge q a Ha). lia.
Qed.

(** ** next_power_of_two *)
Lemma npot_spec n : 0 < n -> least_pow2 n (npot n).
Proof.
  intros Hn. unfold npot. split; [apply pow2_2pow|split].
  - destruct (N.eq_dec n 1) as [->|].
    + cbn. lia.
    + apply N.log2_up_spec. lia.
  - intros r' [k ->] Hle. apply N.pow_le_mono_r; [lia|].
    apply N.log2_up_le_pow2 in Hle; [exact Hle|lia].
Qed.

Lemma least_pow2_unique n r1 r2 : least_pow2 n r1 -> least_pow2 n r2 -> r1 = r2.
Proof.
  intros (A1 & B1 & C1) (A2 & B2 & C2).
  apply N.le_antisymm; [apply C1|apply C2]; assumption.
Qed.

Lemma npot_pow2 n : pow2 (npot n).
Proof. apply pow2_2pow. Qed.

Lemma npot_ge n : n <= npot n.
Proof.
  destruct (N.eq_dec n 0) as [->|H]; [apply N.le_0_l|].
  apply npot_spec. lia.
Qed.

Lemma npot_half_lt n : 1 < n -> npot n / 2 < n.
Proof.
  intros H. unfold npot.
  pose proof (N.log2_up_spec n H) as [H1 H2].
  assert (0 < N.log2_up n) by (apply N.log2_up_pos; exact H).
  assert (2 ^ N.log2_up n = 2 * 2 ^ N.pred (N.log2_up n)) as ->.
  { rewrite <- N.pow_succ_r'. f_equal. lia. }
  rewrite N.mul_comm, N.div_mul by lia. exact H1.
Qed.

Lemma npot_half_pow2 n : 1 < n -> pow2 (npot n / 2).
Proof.
  intros H. unfold npot.
  assert (0 < N.log2_up n) by (apply N.log2_up_pos; exact H).
  assert (2 ^ N.log2_up n = 2 * 2 ^ N.pred (N.log2_up n)) as ->.
  { rewrite <- N.pow_succ_r'. f_equal. lia. }
  rewrite N.mul_comm, N.div_mul by lia. apply pow2_2pow.
Qed.

Lemma npot_mono a b : a <= b -> npot a <= npot b.
Proof. intros H. apply N.pow_le_mono_r; [lia|]. apply N.log2_up_le_mono. exact H. Qed.

Lemma npot_id a : pow2 a -> npot a = a.
Proof. intros [k ->]. unfold npot. rewrite N.log2_up_pow2 by lia. reflexivity. Qed.

Section Facts.
Context {P : Params}.

Lemma umod_pos : 0 < umod.
Proof. unfold umod. apply pow2_pos, pow2_2pow. Qed.

Lemma umod_imax : machine_ok -> umod = 2 * (imax + 1).
Proof.
  intros [H|H]; unfold umod, imax; rewrite H; reflexivity.
Qed.

Lemma imax_lt : machine_ok -> 2 * imax + 2 = umod.
Proof. intros H. rewrite umod_imax by exact H. lia. Qed.

Lemma imax_big : machine_ok -> 2 ^ 31 - 1 <= imax.
Proof. intros [H|H]; unfold imax; rewrite H; cbn; lia. Qed.

Lemma pW_pow2 : machine_ok -> pow2 pW.
Proof. intros [->| ->]; [exists 2|exists 3]; reflexivity. Qed.

Lemma pW_vals : machine_ok -> 4 <= pW <= 8.
Proof. intros [->| ->]; lia. Qed.

Lemma imax_succ_pow2 : machine_ok -> pow2 (imax + 1).
Proof.
  intros H. unfold imax. exists (8 * pW - 1).
  assert (0 < 2 ^ (8 * pW - 1)) by (apply pow2_pos, pow2_2pow). lia.
Qed.

Lemma pow2_lt_imax_divide a : machine_ok -> pow2 a -> a <= imax + 1 -> (a | imax + 1).
Proof. intros H Ha Hl. apply pow2_divide; auto. apply imax_succ_pow2; exact H. Qed.

(** ** Sequencing *)
Lemma bind_ok {S A B} (m : M S A) (f : A -> M S B) s a s' :
  m s = Ok a s' -> bind m f s = f a s'.
Proof. intros H. unfold bind. rewrite H. reflexivity. Qed.

Lemma bind_panic {S A B} (m : M S A) (f : A -> M S B) s p s' :
  m s = Panic p s' -> bind m f s = Panic p s'.
Proof. intros H. unfold bind. rewrite H. reflexivity. Qed.

Lemma bind_assoc {S A B D} (m : M S A) (f : A -> M S B) (g : B -> M S D) s :
  bind (bind m f) g s = bind m (fun a => bind (f a) g) s.
Proof. unfold bind. destruct (m s); reflexivity. Qed.

(** ** Machine operations *)
Lemma add_u_ok {S} (s : S) a b : a + b < umod -> add_u a b s = Ok (a + b) s.
Proof. intros H. unfold add_u. rewrite (proj2 (N.ltb_lt _ _) H). reflexivity. Qed.

Lemma sub_u_ok {S} (s : S) a b : b <= a -> sub_u a b s = Ok (a - b) s.
Proof. intros H. unfold sub_u. rewrite (proj2 (N.leb_le _ _) H). reflexivity. Qed.

Lemma mul_u_ok {S} (s : S) a b : a * b < umod -> mul_u a b s = Ok (a * b) s.
Proof. intros H. unfold mul_u. rewrite (proj2 (N.ltb_lt _ _) H). reflexivity. Qed.

Lemma wrapping_sub_ok a b : b <= a -> a < umod -> wrapping_sub a b = a - b.
Proof.
  intros H1 H2. unfold wrapping_sub.
  replace (a + umod - b) with ((a - b) + 1 * umod) by lia.
  rewrite N.mod_add by lia. apply N.mod_small. lia.
Qed.

Lemma dassert_true {S} (c : M S bool) (s : S) : c s = Ok true s -> dassert c s = Ok tt s.
Proof. intros H. unfold dassert. destruct dbg; [|reflexivity]. unfold bind. rewrite H. reflexivity. Qed.

Lemma assert_or_true {S} p b (s : S) : b = true -> assert_or p b s = Ok tt s.
Proof. intros ->. reflexivity. Qed.

Lemma assert_or_false {S} p b (s : S) : b = false -> assert_or p b s = Panic p s.
Proof. intros ->. reflexivity. Qed.

Lemma land_lnot_round p k w :
  p < 2 ^ w -> N.land p (N.lnot (2 ^ k - 1) w) = p / 2 ^ k * 2 ^ k.
Proof.
  intros Hp.
  assert (N.land p (N.lnot (2 ^ k - 1) w) = N.ldiff p (N.ones k)) as ->.
  { replace (2 ^ k - 1) with (N.ones k) by (rewrite N.ones_equiv; lia).
    apply N.bits_inj. intros i.
    rewrite N.land_spec, N.ldiff_spec.
    destruct (N.lt_ge_cases i w) as [Hi|Hi].
    - rewrite N.lnot_spec_low by exact Hi. reflexivity.
    - assert (N.testbit p i = false) as ->; [|reflexivity].
      destruct (N.eq_dec p 0) as [->|Hnz]; [apply N.bits_0|].
      apply N.bits_above_log2. apply N.log2_lt_pow2; [lia|].
      eapply N.lt_le_trans; [exact Hp|]. apply N.pow_le_mono_r; lia. }
  rewrite N.ldiff_ones_r, N.shiftl_mul_pow2, N.shiftr_div_pow2. reflexivity.
Qed.

Lemma align_up_to_ok {S} (s : S) pos a :
  pow2 a -> pos + a < umod -> align_up_to pos a s = Ok (round_up pos a) s.
Proof.
  intros Ha Hlt. unfold align_up_to, bind.
  rewrite dassert_true by (unfold ret; rewrite (proj2 (is_pow2_spec a) Ha); reflexivity).
  rewrite add_u_ok by exact Hlt.
  pose proof (pow2_pos a Ha).
  rewrite sub_u_ok by lia. rewrite sub_u_ok by lia.
  destruct Ha as [k ->].
  unfold ret. f_equal. rewrite land_lnot_round; [reflexivity|].
  fold umod. lia.
Qed.

Lemma land_low_mod p k : N.land p (2 ^ k - 1) = p mod 2 ^ k.
Proof.
  replace (2 ^ k - 1) with (N.ones k) by (rewrite N.ones_equiv; lia).
  apply N.land_ones.
Qed.

Lemma is_aligned_to_ok {S} (s : S) pos a :
  pow2 a -> is_aligned_to pos a s = Ok (pos mod a =? 0) s.
Proof.
  intros Ha. unfold is_aligned_to, bind.
  rewrite dassert_true by (unfold ret; rewrite (proj2 (is_pow2_spec a) Ha); reflexivity).
  pose proof (pow2_pos a Ha).
  rewrite sub_u_ok by lia.
  destruct Ha as [k ->]. unfold ret. rewrite land_low_mod. reflexivity.
Qed.

Lemma is_aligned_to_true {S} (s : S) pos a :
  pow2 a -> (a | pos) -> is_aligned_to pos a s = Ok true s.
Proof.
  intros Ha Hd. rewrite is_aligned_to_ok by exact Ha.
  pose proof (pow2_pos a Ha).
  rewrite (proj2 (mod_eqb_divide a pos ltac:(lia)) Hd). reflexivity.
Qed.

(** ** Legal layouts *)
Lemma legal_layout_iff size align :
  machine_ok -> pow2 align -> align <= imax ->
  (round_up size align <= imax <-> size <= imax - (align - 1)).
Proof.
  intros Hm Ha Hle. pose proof (pow2_pos align Ha).
  assert (Hd : (align | imax + 1)) by (apply pow2_lt_imax_divide; auto; lia).
  split; intros Hs.
  - destruct (N.le_gt_cases size (imax - (align - 1))) as [|Hgt]; [assumption|exfalso].
    assert (imax + 1 <= round_up size align); [|lia].
    destruct (round_up_divide size align) as [q Hq].
    destruct Hd as [r Hr].
    pose proof (round_up_ge size align ltac:(lia)).
    assert (r - 1 < q).
    { destruct (N.le_gt_cases q (r - 1)) as [Hc|]; [exfalso|assumption].
      assert (q * align <= (r - 1) * align) by (apply N.mul_le_mono_r; exact Hc).
      rewrite N.mul_sub_distr_r in *. lia. }
    rewrite Hr, Hq. apply N.mul_le_mono_r. lia.
  - assert (round_up size align <= imax + 1 - align); [|lia].
    apply round_up_least; [lia| |lia].
    apply N.divide_sub_r; [exact Hd|exists 1; lia].
Qed.

Lemma layout_legal_spec size align :
  machine_ok -> align <= imax ->
  (layout_legal size align = true <-> legal_layout size align).
Proof.
  intros Hm Hle. unfold layout_legal, legal_layout.
  rewrite andb_true_iff, is_pow2_spec, N.leb_le.
  split; intros [Ha Hs]; (split; [exact Ha|]).
  - apply legal_layout_iff; assumption.
  - apply legal_layout_iff in Hs; assumption.
Qed.

(** ** Consequences of the configuration being valid *)
Section Cfg.
Hypothesis C : cfg_ok.

Lemma c_machine : machine_ok. Proof. exact (proj1 C). Qed.
Lemma c_SA : pow2 SA. Proof. apply C. Qed.
Lemma c_MVA : pow2 MVA. Proof. apply C. Qed.
Lemma c_VA : pow2 VA. Proof. apply C. Qed.
Lemma c_VA_MVA : VA <= MVA. Proof. apply C. Qed.
Lemma c_MVA_SA : MVA <= SA. Proof. apply C. Qed.
Lemma c_MAXC : 0 < MAXC. Proof. apply C. Qed.
Lemma c_MVA_MAXC : (MVA | MAXC). Proof. apply C. Qed.
Lemma c_legal : legal_layout MAXC SA. Proof. apply C. Qed.

Lemma c_SA_pos : 0 < SA. Proof. apply pow2_pos, c_SA. Qed.
Lemma c_MVA_pos : 0 < MVA. Proof. apply pow2_pos, c_MVA. Qed.
Lemma c_VA_pos : 0 < VA. Proof. apply pow2_pos, c_VA. Qed.

Lemma c_VA_dvd_MVA : (VA | MVA).
Proof. apply pow2_divide; [apply c_VA|apply c_MVA|apply c_VA_MVA]. Qed.
Lemma c_MVA_dvd_SA : (MVA | SA).
Proof. apply pow2_divide; [apply c_MVA|apply c_SA|apply c_MVA_SA]. Qed.
Lemma c_VA_MAXC : (VA | MAXC).
Proof. eapply divide_trans; [apply c_VA_dvd_MVA|apply c_MVA_MAXC]. Qed.

Lemma c_SA_le_imax : SA <= imax.
Proof.
  destruct c_legal as [_ H].
  assert (SA <= round_up MAXC SA).
  { apply divide_le_pos; [apply round_up_divide|].
    pose proof (round_up_ge MAXC SA c_SA_pos). pose proof c_MAXC. lia. }
  lia.
Qed.

Lemma c_MAXC_bound : MAXC <= imax - (SA - 1).
Proof.
  apply legal_layout_iff; [apply c_machine|apply c_SA|apply c_SA_le_imax|apply c_legal].
Qed.

Lemma c_umod : umod = 2 * imax + 2.
Proof. pose proof (imax_lt c_machine). lia. Qed.

Lemma c_MVA_le_MAXC : MVA <= MAXC.
Proof. apply divide_le_pos; [apply c_MVA_MAXC|apply c_MAXC]. Qed.

Lemma c_sum : MAXC + SA <= imax + 1.
Proof. pose proof c_MAXC_bound. pose proof c_SA_le_imax. pose proof c_SA_pos. lia. Qed.

Lemma c_legal_le size : size <= MAXC -> layout_legal size SA = true.
Proof.
  intros H. unfold layout_legal. rewrite (proj2 (is_pow2_spec SA) c_SA).
  pose proof c_MAXC_bound. cbn. lia.
Qed.

Lemma amc_ok {S} (s : S) a :
  machine_ok -> pow2 a -> a < imax -> aligned_max_capacity a s = Ok (imax - (a - 1)) s.
Proof.
  intros Hm Ha Hl. pose proof (pow2_pos a Ha). unfold aligned_max_capacity, bind.
  rewrite assert_or_true by lia.
  rewrite assert_or_true by (apply is_pow2_spec; exact Ha).
  rewrite assert_or_true by lia.
  rewrite !sub_u_ok by lia. reflexivity.
Qed.

Lemma c_SA_lt_imax : SA < imax.
Proof.
  pose proof c_SA_le_imax as H. destruct (N.eq_dec SA imax) as [E|]; [exfalso|lia].
  pose proof (imax_big c_machine). pose proof c_SA as [k Hk].
  pose proof (imax_succ_pow2 c_machine) as [j Hj].
  destruct (N.eq_dec k 0) as [->|]; [cbn in *; lia|].
  destruct (N.eq_dec j 0) as [->|]; [cbn in *; lia|].
  replace k with (N.succ (N.pred k)) in Hk by lia.
  replace j with (N.succ (N.pred j)) in Hj by lia.
  rewrite N.pow_succ_r' in Hk, Hj. lia.
Qed.

Lemma assert_alignments_valid_ok {S} (s : S) : assert_alignments_valid s = Ok tt s.
Proof.
  pose proof c_SA_pos. pose proof c_MVA_pos. pose proof c_VA_pos. pose proof c_VA_MVA.
  pose proof c_MVA_SA. pose proof c_SA_lt_imax. pose proof c_MAXC. pose proof c_MAXC_bound.
  unfold assert_alignments_valid, bind.
  do 10 (rewrite assert_or_true; [|first [lia|apply is_pow2_spec; first [apply c_SA|apply c_MVA|apply c_VA]]]).
  rewrite (amc_ok _ SA c_machine c_SA c_SA_lt_imax).
  rewrite assert_or_true by lia.
  rewrite assert_or_true by (apply mod_eqb_divide; [lia|apply c_MVA_MAXC]).
  reflexivity.
Qed.

End Cfg.
End Facts.
