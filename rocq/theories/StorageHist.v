(** * StorageHist: all the safe storage operations, and histories of them. *)
From Verif Require Import Base Types Storage Spec ArithFacts StorageFacts.
From Coq Require Import ZifyBool ZifyNat ZifyN.
Local Open Scope N_scope.

Section StorageHist.
Context {P : Params}.

Notation cap w := (s_cap (sw_s w)).
Notation pos w := (s_pos (sw_s w)).
Notation ptr w := (s_ptr (sw_s w)).
Notation buf w := (s_buf (sw_s w)).

(** Potential for counting growths. *)
Definition weight (c : N) : N :=
  if c =? MAXC then 8 * pW + 1 else if c =? 0 then 0 else N.log2 c + 1.
(** Potential for counting the bytes that growths copy. *)
Definition phi (c : N) : N :=
  if c =? MAXC then 2 * MAXC else if c =? 0 then 0 else 2 ^ (N.log2 c + 1) - c.
Definition budget (w w' : sw) : Prop :=
  N.of_nat (sw_calls w') + weight (cap w) <= N.of_nat (sw_calls w) + weight (cap w') /\
  bytes_moved (sw_trace w') + phi (cap w) <= bytes_moved (sw_trace w) + phi (cap w').
Definition gstep (w w' : sw) : Prop := storage_ok w' /\ extends w w' /\ budget w w'.

Section Cfg.
Hypothesis C : cfg_ok.
Hypothesis HA : alloc_ok.

Ltac cfg :=
  pose proof (c_SA_pos C); pose proof (c_MVA_pos C); pose proof (c_VA_pos C);
  pose proof (c_VA_MVA C); pose proof (c_MVA_SA C); pose proof (c_MAXC C);
  pose proof (c_MVA_le_MAXC C); pose proof (c_sum C); pose proof (c_umod C);
  pose proof (c_SA_lt_imax C).

Lemma log2_bound c : 0 < c -> c <= MAXC -> N.log2 c + 2 <= 8 * pW.
Proof.
  intros H1 H2. cfg. pose proof (pW_vals (c_machine C)).
  assert (N.log2 c < 8 * pW - 1); [|lia].
  apply N.log2_lt_pow2; [lia|]. unfold imax in *.
  assert (0 < 2 ^ (8 * pW - 1)) by apply pow2_pos, pow2_2pow. lia.
Qed.

Lemma weight_le c : c <= MAXC -> weight c <= 8 * pW + 1.
Proof.
  intros H. unfold weight. destruct (N.eqb_spec c MAXC); [lia|].
  destruct (N.eqb_spec c 0); [lia|]. pose proof (log2_bound c). lia.
Qed.

Lemma grown_weight c need :
  (MVA | c) -> c < need -> need <= MAXC -> weight c + 1 <= weight (grown c need).
Proof.
  intros Hd Hlt Hle. cfg.
  assert (Hg1 : need <= grown c need) by (apply grown_ge; lia).
  assert (Hg2 : grown c need <= MAXC) by (apply grown_le; exact C).
  unfold weight. destruct (N.eqb_spec c MAXC); [lia|].
  destruct (N.eqb_spec (grown c need) MAXC) as [Eg|Eg].
  - destruct (N.eqb_spec c 0); [lia|].
    pose proof (log2_bound c ltac:(lia) ltac:(lia)). lia.
  - destruct (N.eqb_spec (grown c need) 0); [lia|].
    destruct (N.eqb_spec c 0); [lia|].
    assert (pow2 (grown c need)) as [k Hk].
    { unfold grown in *. rewrite (proj2 (N.eqb_neq c 0)) in * by assumption.
      rewrite N.max_0_r in *.
      destruct (N.min_spec (npot need) MAXC) as [[_ ->]|[_ E]]; [apply npot_pow2|].
      rewrite E in Eg. contradiction. }
    rewrite Hk, N.log2_pow2 by lia.
    assert (N.log2 c < k); [|lia]. apply N.log2_lt_pow2; lia.
Qed.

Lemma log2_pow_bounds c : 0 < c -> 2 ^ N.log2 c <= c /\ c < 2 ^ (N.log2 c + 1).
Proof. intros H. pose proof (N.log2_spec c H). rewrite N.add_1_r. lia. Qed.

Lemma phi_le c : phi c <= 2 * c.
Proof.
  unfold phi. destruct (N.eqb_spec c MAXC) as [->|]; [lia|].
  destruct (N.eqb_spec c 0); [lia|]. destruct (log2_pow_bounds c ltac:(lia)) as [H1 H2].
  rewrite N.pow_add_r in *. change (2 ^ 1) with 2 in *. lia.
Qed.

Lemma grown_phi c need :
  (MVA | c) -> c < need -> need <= MAXC ->
  (if c =? 0 then 0 else c) + phi c <= phi (grown c need).
Proof.
  intros Hd Hlt Hle. cfg.
  assert (Hg1 : need <= grown c need) by (apply grown_ge; lia).
  unfold phi. destruct (N.eqb_spec c MAXC); [lia|].
  destruct (N.eqb_spec c 0); [lia|].
  destruct (log2_pow_bounds c ltac:(lia)) as [H1' H2'].
  replace (2 ^ (N.log2 c + 1)) with (2 * 2 ^ N.log2 c) in *
    by (rewrite N.pow_add_r; change (2 ^ 1) with 2; lia).
  destruct (N.eqb_spec (grown c need) MAXC) as [Eg|Eg]; [lia|].
  destruct (N.eqb_spec (grown c need) 0); [lia|].
  assert (pow2 (grown c need)) as [k Hk].
  { unfold grown in *. rewrite (proj2 (N.eqb_neq c 0)) in * by assumption.
    rewrite N.max_0_r in *.
    destruct (N.min_spec (npot need) MAXC) as [[_ ->]|[_ E]]; [apply npot_pow2|].
    rewrite E in Eg. contradiction. }
  rewrite Hk, N.log2_pow2 by lia. rewrite Hk in *.
  assert (N.log2 c < k) by (apply N.log2_lt_pow2; lia).
  assert (2 ^ (N.log2 c + 1) <= 2 ^ k) by (apply N.pow_le_mono_r; lia).
  rewrite N.pow_add_r in *. change (2 ^ 1) with 2 in *. lia.
Qed.

Lemma bytes_moved_app a b : bytes_moved (a ++ b) = bytes_moved a + bytes_moved b.
Proof. induction a as [|[] a IH]; cbn [bytes_moved app]; lia. Qed.

Lemma gstep_refl w : storage_ok w -> gstep w w.
Proof. intros H. split; [exact H|split; [apply extends_refl|unfold budget; lia]]. Qed.

Lemma gstep_trans w1 w2 w3 : gstep w1 w2 -> gstep w2 w3 -> gstep w1 w3.
Proof.
  intros (A1 & B1 & C1) (A2 & B2 & C2). split; [exact A2|split].
  - eapply extends_trans; eassumption.
  - unfold budget in *. lia.
Qed.

Lemma gstep_same w w' :
  storage_ok w' -> ptr w' = ptr w -> cap w' = cap w ->
  sw_calls w' = sw_calls w -> sw_trace w' = sw_trace w -> gstep w w'.
Proof.
  intros H1 H2 H3 H4 H5. split; [exact H1|split].
  - apply extends_same; assumption.
  - unfold budget. rewrite H3, H4, H5. lia.
Qed.

Lemma gstep_at_pos w p : storage_ok w -> p <= cap w -> (VA | p) -> gstep w (at_pos w p).
Proof. intros. apply gstep_same; try reflexivity. apply ok_at_pos; assumption. Qed.

Lemma grow_to_gstep w need :
  storage_ok w ->
  match grow_to need w with
  | Ok _ w' => gstep w w' /\ pos w' = pos w /\ need <= cap w' /\
               (forall i, i < cap w -> buf w' i = buf w i)
  | Panic p w' => p = PCapacity /\ w' = w /\ MAXC < need
  | Abort => alloc_failed
  | UB | OutOfFuel => False
  end.
Proof.
  intros Hok. pose proof (grow_to_spec C HA w need Hok) as H.
  destruct (grow_to need w) as [[] w'|p w'| | |]; auto.
  destruct H as (A & B & D & Dm & F & G & H1 & H2). ands; auto.
  split; [exact A|split; [exact G|]]. unfold budget.
  destruct (N.le_gt_cases need (cap w)) as [Hle|Hgt].
  - rewrite H1 by exact Hle. lia.
  - destruct (H2 Hgt) as (-> & -> & a & ->).
    pose proof (grown_weight (cap w) need (ok_cap_mul w Hok) Hgt Dm).
    pose proof (grown_phi (cap w) need (ok_cap_mul w Hok) Hgt Dm) as Hphi.
    pose proof (grown_ge (cap w) need ltac:(lia)).
    split; [lia|]. rewrite bytes_moved_app.
    destruct (cap w =? 0); cbn [bytes_moved]; lia.
Qed.

Lemma push_slice_gstep w l len data :
  storage_ok w -> good_layout l -> l_size l * len <= imax ->
  (0 < len \/ 0 < cap w \/ l_align l = 1 \/ l_size l = 0) ->
  match push_slice l len data w with
  | Ok p w' => gstep w w'
  | Panic p w' => gstep w w'
  | Abort => alloc_failed
  | UB | OutOfFuel => False
  end.
Proof.
  intros Hok Hg Hsz Hne.
  destruct (N.eq_dec (l_size l) 0) as [E0|E0].
  { rewrite push_slice_zst by exact E0. apply gstep_refl; exact Hok. }
  pose proof (push_slice_spec C HA w l len data Hok Hg ltac:(lia) Hsz ltac:(lia)) as H.
  rewrite push_slice_eq in * by (auto; lia).
  pose proof Hg as (Ha & _ & _ & Hmva).
  assert (Hst : push_start (pos w) l <= cap w)
    by (apply push_start_le_mul; auto; [apply ok_cap_mul|apply ok_pos_le]; exact Hok).
  set (w0 := at_pos w (push_start (pos w) l)) in *.
  assert (Hok1 : storage_ok w0) by (apply ok_at_pos; auto; apply push_start_VA; auto).
  unfold bind in *.
  pose proof (grow_to_gstep w0 (push_start (pos w) l + l_size l * len) Hok1) as Hg1.
  destruct (grow_to (push_start (pos w) l + l_size l * len) w0) as [[] w1|p w1| | |]; auto.
  - destruct H as (_ & _ & Hok2 & _). destruct Hg1 as (Hgs & _).
    eapply gstep_trans; [apply gstep_at_pos; [exact Hok|exact Hst|apply push_start_VA; auto]|].
    eapply gstep_trans; [exact Hgs|].
    apply gstep_same; auto.
  - destruct Hg1 as (_ & -> & _).
    apply gstep_at_pos; [exact Hok|exact Hst|apply push_start_VA; auto].
Qed.

(** ** push_empty_slice *)
Lemma VA_dvd_umod : (VA | umod).
Proof.
  cfg. apply pow2_divide; [apply (c_VA C)|unfold umod; apply pow2_2pow|lia].
Qed.

(** The debug assertion in set_pos fails on a position not aligned to VALUE_ALIGNMENT. *)
Definition set_pos_panics (p : N) : bool := dbg && negb (p mod VA =? 0).

Lemma set_pos_gen w p :
  p <= cap w ->
  set_pos p w = if set_pos_panics p then Panic PDebugAssert w else Ok tt (at_pos w p).
Proof.
  intros Hp. unfold set_pos. erewrite bind_ok by reflexivity.
  erewrite bind_ok by (apply dassert_true; unfold ret; do 2 f_equal; lia).
  unfold set_pos_panics, dassert, bind at 1. destruct dbg; cbn [andb]; [|reflexivity].
  unfold bind. rewrite is_aligned_to_ok by apply (c_VA C).
  destruct (p mod VA =? 0); reflexivity.
Qed.

(** [sz] is what size_of::<T>() * len evaluates to. *)
Lemma push_empty_slice_eq w l len sz :
  storage_ok w -> good_layout l -> sz < umod ->
  (forall w', mul_u (l_size l) len w' = @Ok sw N sz w') ->
  push_empty_slice l len w =
    (grow_to (push_start (pos w) l + sz) ;;;
     fun w1 => if set_pos_panics (push_start (pos w) l + sz) then Panic PDebugAssert w1
               else Ok (push_start (pos w) l)
                       (at_pos w1 (if 0 <? l_size l mod VA
                                   then round_up (push_start (pos w) l + sz) VA
                                   else push_start (pos w) l + sz)))
    (at_pos w (push_start (pos w) l)).
Proof.
  intros Hok Hg Hsz Hmul. cfg.
  pose proof Hg as (Ha & Hg2 & Hg3 & Hg4).
  destruct (align_for_eq C w l Ha Hg4 Hok) as [Haf Hst].
  unfold push_empty_slice. erewrite bind_ok by exact Haf.
  erewrite bind_ok by apply Hmul.
  set (start := push_start (pos w) l) in *.
  assert (HstVA : (VA | start)) by (apply push_start_VA; auto).
  assert (Hok1 : storage_ok (at_pos w start)) by (apply ok_at_pos; assumption).
  unfold bind at 1. rewrite reserve_eq by (try lia; auto). cbn [s_pos sw_s at_pos with_store].
  pose proof (grow_to_gstep (at_pos w start) (start + sz) Hok1) as Hgs.
  unfold bind at 5.
  destruct (grow_to (start + sz) (at_pos w start)) as [[] w1|p w1| | |]; try reflexivity.
  destruct Hgs as ((Hok2 & _) & Hpos & Hcap & _).
  cbn [s_pos sw_s at_pos with_store] in Hpos.
  pose proof (ok_cap_le w1 Hok2).
  erewrite bind_ok by reflexivity. rewrite Hpos.
  erewrite bind_ok by (apply add_u_ok; lia).
  rewrite (bind_assoc (set_pos _)) || idtac.
  unfold bind at 1. rewrite set_pos_gen by exact Hcap.
  destruct (set_pos_panics (start + sz)); [reflexivity|].
  unfold align_after. destruct (N.ltb_spec 0 (l_size l mod VA)).
  - unfold align_after_any. erewrite bind_ok.
    2:{ apply align_eq; auto; try lia; try apply (c_VA C);
        cbn; apply ok_cap_mul; exact Hok2. }
    reflexivity.
  - reflexivity.
Qed.

Lemma mul_u_cases a b :
  (exists sz, sz < umod /\ (forall w, mul_u a b w = @Ok sw N sz w) /\
              ((VA | a) -> (VA | sz)) /\ (a * b < umod -> sz = a * b)) \/
  (umod <= a * b /\ dbg = true /\ forall w, mul_u a b w = @Panic sw N PArith w).
Proof.
  pose proof umod_pos.
  unfold mul_u. destruct (N.ltb_spec (a * b) umod) as [Hl|Hl].
  - left. exists (a * b). ands; auto. apply N.divide_mul_l.
  - destruct dbg; [right; auto|left]. exists ((a * b) mod umod).
    split; [apply N.mod_lt; lia|]. split; [reflexivity|]. split; [|lia].
    + intros Hd. rewrite N.mod_eq by lia.
      apply N.divide_sub_r; [apply N.divide_mul_l; exact Hd|].
      apply N.divide_mul_l. apply VA_dvd_umod.
Qed.

Lemma push_empty_slice_gstep w l len :
  storage_ok w -> good_layout l -> len < umod ->
  match push_empty_slice l len w with
  | Ok _ w' | Panic _ w' => gstep w w'
  | Abort => alloc_failed
  | UB | OutOfFuel => False
  end.
Proof.
  intros Hok Hg Hlen. cfg. pose proof Hg as (Ha & Hg2 & Hg3 & Hg4).
  destruct (align_for_eq C w l Ha Hg4 Hok) as [Haf Hst].
  assert (HstVA : (VA | push_start (pos w) l)) by (apply push_start_VA; auto).
  destruct (mul_u_cases (l_size l) len) as [(sz & Hsz & Hm & Hd & _)|(_ & _ & Hm)].
  2:{ unfold push_empty_slice. erewrite bind_ok by exact Haf.
      erewrite bind_panic by apply Hm. apply gstep_at_pos; auto. }
  rewrite (push_empty_slice_eq w l len sz Hok Hg Hsz Hm).
  set (start := push_start (pos w) l) in *.
  assert (Hok1 : storage_ok (at_pos w start)) by (apply ok_at_pos; assumption).
  assert (Hs0 : gstep w (at_pos w start)) by (apply gstep_at_pos; auto).
  unfold bind.
  pose proof (grow_to_gstep (at_pos w start) (start + sz) Hok1) as Hgs.
  destruct (grow_to (start + sz) (at_pos w start)) as [[] w1|p w1| | |]; auto.
  - destruct Hgs as (Hs1 & Hpos & Hcap & _).
    pose proof (gstep_trans _ _ _ Hs0 Hs1) as Hs2. destruct Hs1 as (Hok2 & _).
    destruct (set_pos_panics (start + sz)); [exact Hs2|].
    eapply gstep_trans; [exact Hs2|].
    apply gstep_at_pos; [exact Hok2| |].
    + destruct (0 <? l_size l mod VA); [|exact Hcap].
      apply round_up_least; [lia| |exact Hcap].
      eapply divide_trans; [apply (c_VA_dvd_MVA C)|apply ok_cap_mul; exact Hok2].
    + destruct (N.ltb_spec 0 (l_size l mod VA)) as [Hx|Hx]; [apply round_up_divide|].
      apply N.divide_add_r; [exact HstVA|]. apply Hd. apply N.mod_divide; [lia|].
      apply N.le_0_r; exact Hx.
  - destruct Hgs as (_ & -> & _). exact Hs0.
Qed.

(** ** shrink_to_fit, drop, with_capacity *)
Definition freed (w : sw) : sw :=
  mkSW (mkStore dangling_u8 0 (pos w) no_mem) (sw_calls w)
       (sw_trace w ++ [EDealloc (ptr w) (cap w) SA]).

Lemma dealloc_eq w :
  0 < cap w -> cap w <= MAXC ->
  dealloc w = Ok tt (mkSW (mkStore (ptr w) (cap w) (pos w) no_mem) (sw_calls w)
                      (sw_trace w ++ [EDealloc (ptr w) (cap w) SA])).
Proof.
  intros H1 H2. unfold dealloc. erewrite bind_ok by reflexivity.
  erewrite bind_ok by (apply dassert_true; unfold ret; do 2 f_equal; lia).
  rewrite (proj2 (N.ltb_lt _ _) H1), (c_legal_le C) by exact H2. reflexivity.
Qed.

Lemma realloc_eq w c :
  0 < cap w -> cap w <= MAXC -> 0 < c -> c <= MAXC ->
  (p <- realloc c ;; put_ptr p ;;; put_cap c) w =
    if orc (sw_calls w) c =? 0 then Abort else Ok tt (moved w (orc (sw_calls w) c) c).
Proof.
  intros H1 H2 H3 H4. cfg. unfold realloc.
  unfold bind at 1. erewrite bind_ok by reflexivity.
  erewrite bind_ok by (apply dassert_true; unfold ret; do 2 f_equal; lia).
  erewrite bind_ok by (apply dassert_true; unfold ret; do 2 f_equal; lia).
  erewrite bind_ok.
  2:{ apply dassert_true. unfold bind.
      rewrite (amc_ok _ SA (c_machine C) (c_SA C) (c_SA_lt_imax C)).
      unfold ret. do 2 f_equal. lia. }
  rewrite (c_legal_le C c) by lia. rewrite (c_legal_le C (cap w)) by lia.
  rewrite (proj2 (N.ltb_lt 0 c)) by lia.
  rewrite (proj2 (N.ltb_lt 0 (cap w))) by lia. cbn [andb].
  destruct (N.eqb_spec (orc (sw_calls w) c) 0); [reflexivity|].
  cbv [put_ptr put_cap modify bind]. cbn. unfold moved, with_store. cbn.
  destruct (N.eqb_spec (cap w) 0); [lia|]. reflexivity.
Qed.

Lemma shrink_eq w :
  storage_ok w ->
  shrink_to_fit w =
    let c := round_up (pos w) MVA in
    if c =? cap w then Ok tt w
    else if c =? 0 then Ok tt (freed w)
    else if orc (sw_calls w) c =? 0 then Abort
    else Ok tt (moved w (orc (sw_calls w) c) c).
Proof.
  intros Hok. cfg.
  pose proof (ok_pos_le w Hok). pose proof (ok_cap_le w Hok). pose proof (ok_cap_mul w Hok).
  unfold shrink_to_fit. erewrite bind_ok by reflexivity.
  erewrite bind_ok by (apply align_up_to_ok; [apply (c_MVA C)|lia]).
  erewrite bind_ok by reflexivity.
  set (c := round_up (pos w) MVA).
  assert (Hc : c <= cap w) by (apply round_up_least; [lia|assumption|assumption]).
  cbv zeta. destruct (N.eqb_spec c (cap w)) as [|Hne]; [reflexivity|]. cbn [negb].
  destruct (N.eqb_spec c 0) as [E0|E0].
  - rewrite E0. unfold bind at 2.
    erewrite bind_ok.
    2:{ erewrite dealloc_eq by lia. reflexivity. }
    reflexivity.
  - apply realloc_eq; lia.
Qed.

Lemma moved_ok w c :
  storage_ok w -> 0 < c -> c <= MAXC -> (MVA | c) -> pos w <= c ->
  orc (sw_calls w) c <> 0 ->
  storage_ok (moved w (orc (sw_calls w) c) c) /\ extends w (moved w (orc (sw_calls w) c) c) /\
  (forall i, i < cap w -> i < c -> buf (moved w (orc (sw_calls w) c) c) i = buf w i).
Proof.
  intros Hok Hc0 Hc1 Hd Hp Hn. cfg.
  destruct (HA (sw_calls w) c) as [|[Ha1 Ha2]]; [contradiction|].
  set (a := orc (sw_calls w) c) in *.
  split; [|split].
  - unfold storage_ok, moved; cbn. destruct Hok as (_ & _ & _ & Hva & _).
    ands; auto; try lia; intros; ands; auto; lia.
  - eexists; split; [reflexivity|].
    assert (legal_layout c SA).
    { apply layout_legal_spec; [apply (c_machine C)|lia|apply (c_legal_le C); lia]. }
    unfold block, moved; cbn. destruct (N.eqb_spec c 0); [lia|].
    destruct (N.eqb_spec (cap w) 0);
      (constructor; [lia|assumption|assumption|assumption|constructor]).
  - intros i Hi1 Hi2. unfold moved; cbn. destruct (N.eqb_spec (cap w) 0); [lia|].
    rewrite (proj2 (N.ltb_lt i (cap w))) by lia.
    rewrite (proj2 (N.ltb_lt i c)) by lia. reflexivity.
Qed.

Lemma freed_ok w :
  storage_ok w -> 0 < cap w -> pos w = 0 -> storage_ok (freed w) /\ extends w (freed w).
Proof.
  intros Hok Hc Hp. split.
  - unfold storage_ok, freed; cbn. rewrite Hp. ands; try apply N.divide_0_r; try lia; try reflexivity; intros; exfalso; lia.
  - eexists; split; [reflexivity|]. unfold block, freed; cbn.
    destruct (N.eqb_spec (cap w) 0); [lia|]. constructor. constructor.
Qed.

Lemma shrink_spec w :
  storage_ok w ->
  match shrink_to_fit w with
  | Ok _ w' =>
      storage_ok w' /\ extends w w' /\ pos w' = pos w /\
      cap w' = round_up (pos w) MVA /\ cap w' <= cap w /\
      (forall i, i < pos w -> buf w' i = buf w i)
  | Abort => alloc_failed
  | Panic _ _ | UB | OutOfFuel => False
  end.
Proof.
  intros Hok. cfg. rewrite (shrink_eq w Hok). cbv zeta.
  pose proof (ok_pos_le w Hok). pose proof (ok_cap_le w Hok). pose proof (ok_cap_mul w Hok).
  pose proof (round_up_ge (pos w) MVA ltac:(lia)).
  pose proof (round_up_divide (pos w) MVA).
  assert (Hc : round_up (pos w) MVA <= cap w) by (apply round_up_least; [lia|assumption|assumption]).
  set (c := round_up (pos w) MVA) in *.
  destruct (N.eqb_spec c (cap w)) as [E|Hne].
  { ands; auto; try lia. apply extends_refl. }
  destruct (N.eqb_spec c 0) as [E0|E0].
  { destruct (freed_ok w Hok ltac:(lia) ltac:(lia)). cbn. ands; auto; lia. }
  destruct (N.eqb_spec (orc (sw_calls w) c) 0) as [|Hn]; [exists (sw_calls w), c; ands; auto; lia|].
  destruct (moved_ok w c Hok ltac:(lia) ltac:(lia) ltac:(assumption) ltac:(lia) Hn) as (A & B & D).
  cbn. ands; auto. intros i Hi. apply D; lia.
Qed.

Lemma drop_spec w :
  storage_ok w ->
  exists w', drop_store w = Ok tt w' /\
    exists evs, sw_trace w' = sw_trace w ++ evs /\ protocol (block w) evs None.
Proof.
  intros Hok. unfold drop_store. erewrite bind_ok by reflexivity.
  pose proof (ok_cap_le w Hok).
  destruct (N.ltb_spec 0 (cap w)) as [Hc|Hc].
  - rewrite dealloc_eq by assumption. eexists; split; [reflexivity|].
    eexists; split; [reflexivity|]. unfold block.
    destruct (N.eqb_spec (cap w) 0); [lia|]. repeat constructor.
  - eexists; split; [reflexivity|]. exists []. rewrite app_nil_r. split; [reflexivity|].
    unfold block. destruct (N.eqb_spec (cap w) 0); [constructor|lia].
Qed.

Lemma with_capacity_spec c :
  c < umod ->
  match with_capacity c sw_new with
  | Ok _ w' =>
      c <= MAXC /\ storage_ok w' /\ extends sw_new w' /\ pos w' = 0 /\
      cap w' = round_up c MVA /\
      (c = 0 -> w' = sw_new) /\ (0 < c -> sw_calls w' = 1%nat)
  | Panic p w' => p = PWithCapacity /\ MAXC < c /\ w' = sw_new
  | Abort => alloc_failed
  | UB | OutOfFuel => False
  end.
Proof.
  intros Hc. cfg. unfold with_capacity.
  erewrite bind_ok by apply (assert_alignments_valid_ok C).
  destruct (N.eqb_spec c 0) as [->|Hc0].
  { rewrite (assert_alignments_valid_ok C). ands; auto; try lia; try apply sw_new_ok; try apply extends_refl.
    cbn. rewrite round_up_id; [reflexivity|lia|apply N.divide_0_r]. }
  destruct (N.le_gt_cases c MAXC) as [Hle|Hgt].
  2:{ erewrite bind_panic by (apply assert_or_false; lia). auto. }
  erewrite bind_ok by (apply assert_or_true; lia).
  erewrite bind_ok by (apply align_up_to_ok; [apply (c_MVA C)|lia]).
  pose proof (round_up_ge c MVA ltac:(lia)).
  pose proof (round_up_divide c MVA).
  assert (Hr : round_up c MVA <= MAXC) by (apply round_up_least; [lia|apply (c_MVA_MAXC C)|assumption]).
  set (c' := round_up c MVA) in *.
  unfold with_capacity_unchecked.
  erewrite bind_ok by apply (assert_alignments_valid_ok C).
  erewrite bind_ok by (apply dassert_true; unfold ret; do 2 f_equal; lia).
  erewrite bind_ok by (apply dassert_true; unfold ret; do 2 f_equal; lia).
  erewrite bind_ok by (apply dassert_true, is_aligned_to_true; [apply (c_MVA C)|assumption]).
  unfold alloc. unfold bind at 1.
  erewrite bind_ok by (apply dassert_true; unfold ret; do 2 f_equal; lia).
  erewrite bind_ok.
  2:{ apply dassert_true. unfold bind.
      rewrite (amc_ok _ SA (c_machine C) (c_SA C) (c_SA_lt_imax C)).
      unfold ret. do 2 f_equal. lia. }
  rewrite (c_legal_le C c') by lia.
  rewrite (proj2 (N.ltb_lt 0 c')) by lia. cbn [andb].
  destruct (N.eqb_spec (orc (sw_calls sw_new) c') 0) as [|Hn]; [exists (sw_calls sw_new), c'; ands; auto; lia|].
  cbv [put_ptr put_cap put_pos modify bind].
  pose proof (moved_ok sw_new c' sw_new_ok ltac:(lia) Hr ltac:(assumption) ltac:(cbn; lia) Hn)
    as (A & B & _).
  unfold moved in A, B. cbn in A, B |- *.
  ands; auto; try lia.
Qed.

(** ** Any operation *)

(** Pushing an empty slice on a storage with nothing allocated makes a zero-length
    copy to a misaligned pointer. *)
Lemma empty_push_UB w l d :
  storage_ok w -> good_layout l -> 0 < l_size l -> 1 < l_align l -> cap w = 0 ->
  push_slice l 0 d w = UB.
Proof.
  intros Hok Hg Hs Hal Hc. cfg. pose proof Hg as (Ha & Hg2 & Hg3 & Hg4).
  destruct (align_for_eq C w l Ha Hg4 Hok) as [Haf Hst].
  assert (Hst0 : push_start (pos w) l = 0) by lia.
  rewrite Hst0 in Haf.
  unfold push_slice. rewrite (proj2 (N.eqb_neq (l_size l) 0)) by lia.
  erewrite bind_ok by exact Haf.
  erewrite bind_ok by (apply mul_u_ok; lia).
  rewrite N.mul_0_r.
  assert (Hok0 : storage_ok (at_pos w 0)) by (apply ok_at_pos; [exact Hok|lia|apply N.divide_0_r]).
  erewrite bind_ok.
  2:{ rewrite reserve_eq by (auto; lia). unfold grow_to. cbn. rewrite Hc. reflexivity. }
  erewrite bind_ok by reflexivity. cbn [s_pos sw_s at_pos with_store].
  unfold bind at 1. unfold push_slice_unchecked.
  erewrite bind_ok.
  2:{ apply dassert_true. unfold bind. cbv [get_cap get_pos gets]. cbn.
      rewrite sub_u_ok by lia. unfold ret. do 2 f_equal; lia. }
  erewrite bind_ok.
  2:{ apply dassert_true. unfold bind. rewrite mul_u_ok by lia. unfold ret. do 2 f_equal. lia. }
  erewrite bind_ok.
  2:{ apply dassert_true. unfold bind. cbv [get_pos gets]. cbn.
      apply is_aligned_to_true; [exact Ha|apply N.divide_0_r]. }
  rewrite (proj2 (N.eqb_neq (l_size l) 0)) by lia.
  erewrite bind_ok by reflexivity. cbn [s_pos sw_s at_pos with_store].
  unfold bind at 1. unfold write_slice.
  erewrite bind_ok by reflexivity. cbn [s_cap sw_s at_pos with_store].
  erewrite bind_ok by (apply dassert_true; unfold ret; do 2 f_equal; lia).
  erewrite bind_ok.
  2:{ apply dassert_true. unfold bind. rewrite sub_u_ok by lia. rewrite mul_u_ok by lia.
      unfold ret. do 2 f_equal. lia. }
  erewrite bind_ok by (apply dassert_true, is_aligned_to_true; [exact Ha|apply N.divide_0_r]).
  rewrite (proj2 (N.eqb_neq (l_size l) 0)) by lia.
  cbn [s_ptr s_cap sw_s at_pos with_store].
  assert (ptr w = 1) as -> by (apply Hok; exact Hc).
  rewrite N.add_0_r, (N.mod_small 1) by lia. rewrite andb_false_r. reflexivity.
Qed.

Lemma run_op_spec w o :
  storage_ok w -> op_valid o ->
  match run_op o w with
  | Ok _ w' | Panic _ w' =>
      storage_ok w' /\ extends w w' /\ (o <> OShrink -> budget w w')
  | Abort => alloc_failed
  | UB => empty_slice_push w o
  | OutOfFuel => False
  end.
Proof.
  intros Hok Hv. cfg.
  assert (Hgs : forall w', gstep w w' ->
     storage_ok w' /\ extends w w' /\ (o <> OShrink -> budget w w')) by (intros w' (?&?&?); auto).
  pose proof (ok_pos_le w Hok). pose proof (ok_cap_le w Hok). pose proof (ok_cap_mul w Hok).
  destruct o as [l d|l n d|n d|l|l n|n|l|l| | |]; cbn [run_op op_valid] in *;
    unfold some_pos, no_pos.
  - unfold bind, push.
    pose proof (push_slice_gstep w l 1 d Hok Hv ltac:(destruct Hv; lia) ltac:(lia)) as H'.
    destruct (push_slice l 1 d w); unfold ret; auto; contradiction.
  - destruct Hv as [Hg Hsz]. unfold bind.
    assert (Hcase : (n = 0 /\ 0 < l_size l /\ 1 < l_align l /\ cap w = 0) \/
                    (0 < n \/ 0 < cap w \/ l_align l = 1 \/ l_size l = 0)).
    { destruct Hg as (Ha & _). pose proof (pow2_pos _ Ha). lia. }
    destruct Hcase as [(-> & H1' & H2' & H3')|Hc].
    + rewrite empty_push_UB by assumption. cbn. auto.
    + pose proof (push_slice_gstep w l n d Hok Hg Hsz Hc) as H'.
      destruct (push_slice l n d w); unfold ret; auto; contradiction.
  - unfold bind, push_bytes.
    pose proof (push_slice_gstep w u8_layout n d Hok) as H'.
    assert (Hg : good_layout u8_layout).
    { pose proof (imax_big (c_machine C)). unfold good_layout; cbn. ands; try lia.
      - apply pow2_1. - apply N.divide_refl. }
    specialize (H' Hg ltac:(unfold u8_layout; cbn [l_size]; lia) ltac:(unfold u8_layout; cbn [l_size l_align]; lia)).
    destruct (push_slice u8_layout n d w); unfold ret; auto; contradiction.
  - unfold bind, push_empty.
    pose proof (push_empty_slice_gstep w l 1 Hok Hv ltac:(lia)) as H'.
    destruct (push_empty_slice l 1 w); unfold ret; auto; contradiction.
  - destruct Hv as [Hg Hn]. unfold bind.
    pose proof (push_empty_slice_gstep w l n Hok Hg Hn) as H'.
    destruct (push_empty_slice l n w); unfold ret; auto; contradiction.
  - unfold bind. rewrite reserve_eq by assumption.
    pose proof (grow_to_gstep w (pos w + n) Hok) as H'.
    destruct (grow_to (pos w + n) w) as [[] w'|p w'| | |]; unfold ret; auto; try contradiction.
    + apply Hgs. apply H'.
    + destruct H' as (_ & -> & _). apply Hgs, gstep_refl; exact Hok.
  - destruct Hv as (Ha & _ & _ & Hl).
    destruct (align_for_eq C w l Ha Hl Hok) as [Haf Hst].
    erewrite bind_ok by exact Haf. unfold ret.
    apply Hgs, gstep_at_pos; auto. apply push_start_VA; auto.
  - unfold align_after, bind. destruct (0 <? l_size l mod VA).
    + unfold align_after_any.
      destruct (align_eq C w VA (c_VA C) ltac:(lia) ltac:(lia)) as [-> Hle]; auto.
      unfold ret. apply Hgs, gstep_at_pos; auto. apply round_up_divide.
    + unfold ret. apply Hgs, gstep_refl; exact Hok.
  - unfold bind, align_after_any.
    destruct (align_eq C w VA (c_VA C) ltac:(lia) ltac:(lia)) as [-> Hle]; auto.
    unfold ret. apply Hgs, gstep_at_pos; auto. apply round_up_divide.
  - unfold clear. erewrite bind_ok by (apply set_pos_eq; [exact C|lia|apply N.divide_0_r]).
    unfold ret. apply Hgs, gstep_at_pos; auto; [lia|apply N.divide_0_r].
  - unfold bind. pose proof (shrink_spec w Hok) as H'.
    destruct (shrink_to_fit w); unfold ret; auto; try contradiction.
    destruct H' as (A & B & _). ands; auto. contradiction.
Qed.

(** ** Histories *)
Lemma run_ops_spec os : forall w,
  storage_ok w -> Forall op_valid os ->
  match run_ops os w with
  | Ok _ w' => storage_ok w' /\ extends w w' /\ (~ In OShrink os -> budget w w')
  | Panic _ _ => False
  | Abort => alloc_failed
  | UB => exists os1 o os2 w1, os = os1 ++ o :: os2 /\ run_ops os1 w = Ok tt w1 /\
            empty_slice_push w1 o
  | OutOfFuel => False
  end.
Proof.
  induction os as [|o os IH]; intros w Hok Hv.
  - cbn. ands; auto; [apply extends_refl|unfold budget; lia].
  - inversion Hv as [|? ? Ho Hos]; subst. cbn [run_ops].
    pose proof (run_op_spec w o Hok Ho) as H1.
    assert (Hstep : forall w1, run_ops [o] w = Ok tt w1 ->
      storage_ok w1 /\ extends w w1 /\ (o <> OShrink -> budget w w1) ->
      match run_ops os w1 with
      | Ok _ w' => storage_ok w' /\ extends w w' /\ (~ In OShrink (o :: os) -> budget w w')
      | Panic _ _ => False
      | Abort => alloc_failed
      | UB => exists os1 o' os2 w2, o :: os = os1 ++ o' :: os2 /\ run_ops os1 w = Ok tt w2 /\
                empty_slice_push w2 o'
      | OutOfFuel => False
      end).
    { intros w1 Hrun (A & B & D). specialize (IH w1 A Hos).
      destruct (run_ops os w1) as [[] w'|p w'| | |]; auto.
      - destruct IH as (A' & B' & D'). ands; auto; [eapply extends_trans; eassumption|].
        intros Hin. cbn in Hin. assert (o <> OShrink) by (intros ->; apply Hin; auto).
        assert (~ In OShrink os) by auto. unfold budget in *.
        specialize (D ltac:(assumption)). specialize (D' ltac:(assumption)). lia.
      - destruct IH as (os1 & o' & os2 & w2 & -> & Hr & He).
        exists (o :: os1), o', os2, w2. ands; auto.
        cbn [run_ops] in Hrun |- *.
        destruct (run_op o w) as [? wa|? wa| | |]; inversion Hrun; subst; exact Hr. }
    cbn [run_ops] in Hstep.
    destruct (run_op o w) as [r w1|p w1| | |]; auto.
    1,2: apply Hstep; [reflexivity|exact H1].
    exists [], o, os, w. ands; auto.
Qed.

Lemma no_shrink_calls os w w' :
  storage_ok w -> Forall op_valid os -> ~ In OShrink os ->
  run_ops os w = Ok tt w' ->
  N.of_nat (sw_calls w') <= N.of_nat (sw_calls w) + (8 * pW + 1).
Proof.
  intros Hok Hv Hns Hr. pose proof (run_ops_spec os w Hok Hv) as H. rewrite Hr in H.
  destruct H as (A & _ & B). specialize (B Hns). unfold budget in B.
  pose proof (weight_le (cap w') (ok_cap_le w' A)). lia.
Qed.

(** ** Positions are determined by the shapes *)
Lemma u8_good : good_layout u8_layout.
Proof.
  pose proof (imax_big (c_machine C)). cfg. unfold good_layout; cbn. ands; try lia.
  - apply pow2_1.
  - apply N.divide_refl.
Qed.

Lemma run_op_pos w o r w' :
  storage_ok w -> op_valid o -> no_overflow o ->
  run_op o w = Ok r w' -> r = op_pos (pos w) o /\ pos w' = op_next (pos w) o.
Proof.
  intros Hok Hv Hno. cfg.
  pose proof (ok_pos_le w Hok). pose proof (ok_cap_le w Hok). pose proof (ok_cap_mul w Hok).
  assert (Hpush : forall l n d, good_layout l -> l_size l * n <= imax ->
    (n = 0 -> 0 < l_size l -> 1 < l_align l -> 0 < cap w) ->
    forall r w', some_pos (push_slice l n d) w = Ok r w' ->
    r = Some (if l_size l =? 0 then 0 else push_start (pos w) l) /\
    pos w' = (if l_size l =? 0 then pos w else push_end (pos w) l n)).
  { intros l n d Hg Hsz Hcap r' wx. unfold some_pos, bind.
    destruct (N.eqb_spec (l_size l) 0) as [E0|E0].
    - rewrite push_slice_zst by exact E0. unfold ret. intros E; inversion E; subst; auto.
    - assert (Hx : 0 < n \/ 0 < cap w \/ l_align l = 1).
      { destruct Hg as (Ha & _). pose proof (pow2_pos _ Ha). lia. }
      pose proof (push_slice_spec C HA w l n d Hok Hg ltac:(lia) Hsz Hx) as Hs.
      destruct (push_slice l n d w) as [p wy|p wy| | |]; try discriminate.
      destruct Hs as (A & B & _). unfold ret. intros E; inversion E; subst; auto. }
  assert (Hempty : forall l n, good_layout l -> l_size l * n < umod ->
    forall r w', some_pos (push_empty_slice l n) w = Ok r w' ->
    r = Some (push_start (pos w) l) /\ pos w' = push_end (pos w) l n).
  { intros l n Hg Hn r' wx. unfold some_pos, bind.
    rewrite (push_empty_slice_eq w l n (l_size l * n) Hok Hg Hn).
    2:{ intros. apply mul_u_ok; exact Hn. }
    unfold bind. destruct (grow_to _ _) as [[] w1|? ?| | |]; try discriminate.
    destruct (set_pos_panics _); try discriminate. unfold ret.
    intros E; inversion E; subst; clear E. split; [reflexivity|]. cbn.
    unfold push_end.
    destruct (N.ltb_spec 0 (l_size l mod VA)) as [|Hm]; [reflexivity|].
    symmetry. apply round_up_id; [lia|]. apply N.divide_add_r.
    - apply push_start_VA; auto. apply Hg.
    - apply N.divide_mul_l. apply N.mod_divide; [lia|]. apply N.le_0_r; exact Hm. }
  assert (Hno_pos : forall (m : M sw unit) w1, m w = Ok tt w1 -> forall r w', no_pos m w = Ok r w' ->
     r = None /\ w' = w1).
  { intros m w1 E r' wx. unfold no_pos, bind. rewrite E. unfold ret. intros E'; inversion E'; auto. }
  destruct o as [l d|l n d|n d|l|l n|n|l|l| | |]; cbn [run_op op_valid op_pos op_next no_overflow] in *;
    intros Hrun.
  - apply (Hpush l 1 d Hv ltac:(destruct Hv; lia) ltac:(lia) _ _ Hrun).
  - destruct Hv as [Hg Hsz]. apply (Hpush l n d Hg Hsz) with (r := r) (w' := w'); [|exact Hrun].
    intros -> H1' H2'. destruct (N.eq_dec (cap w) 0) as [Ec|]; [|lia]. exfalso.
    unfold some_pos, bind in Hrun. rewrite empty_push_UB in Hrun by assumption. discriminate.
  - apply (Hpush u8_layout n d u8_good ltac:(unfold u8_layout; cbn [l_size]; lia) ltac:(unfold u8_layout; cbn [l_align]; lia) _ _ Hrun).
  - apply (Hempty l 1 Hv ltac:(destruct Hv; lia) _ _ Hrun).
  - destruct Hv as [Hg _]. apply (Hempty l n Hg Hno _ _ Hrun).
  - unfold no_pos, bind in Hrun. rewrite reserve_eq in Hrun by assumption.
    pose proof (grow_to_gstep w (pos w + n) Hok) as H'.
    destruct (grow_to (pos w + n) w) as [[] wx|? ?| | |]; try discriminate.
    unfold ret in Hrun. inversion Hrun; subst. split; [reflexivity|]. apply H'.
  - destruct Hv as (Ha & _ & _ & Hl).
    destruct (align_for_eq C w l Ha Hl Hok) as [Haf Hst].
    destruct (Hno_pos _ _ Haf _ _ Hrun) as [-> ->]. auto.
  - unfold no_pos, align_after, bind in Hrun. destruct (0 <? l_size l mod VA).
    + unfold align_after_any in Hrun.
      destruct (align_eq C w VA (c_VA C) ltac:(lia) ltac:(lia)) as [E Hle]; auto.
      rewrite E in Hrun. unfold ret in Hrun. inversion Hrun; subst. split; [reflexivity|].
      cbn. apply round_up_id; [lia|apply ok_pos_mul; exact Hok].
    + unfold ret in Hrun. inversion Hrun; subst; auto.
  - unfold no_pos, align_after_any, bind in Hrun.
    destruct (align_eq C w VA (c_VA C) ltac:(lia) ltac:(lia)) as [E Hle]; auto.
    rewrite E in Hrun. unfold ret in Hrun. inversion Hrun; subst. split; [reflexivity|].
    cbn. apply round_up_id; [lia|apply ok_pos_mul; exact Hok].
  - destruct (Hno_pos _ _ (set_pos_eq C w 0 ltac:(lia) (N.divide_0_r _)) _ _ Hrun) as [-> ->]. auto.
  - unfold no_pos, bind in Hrun. pose proof (shrink_spec w Hok) as H'.
    destruct (shrink_to_fit w); try discriminate.
    unfold ret in Hrun. inversion Hrun; subst. split; [reflexivity|]. apply H'.
Qed.

Lemma run_seq_positions os : forall w rs w',
  storage_ok w -> Forall op_valid os -> Forall no_overflow os ->
  run_seq os w = Ok rs w' -> rs = positions (pos w) os.
Proof.
  induction os as [|o os IH]; intros w rs w' Hok Hv Hn Hr.
  - cbn in Hr. inversion Hr. reflexivity.
  - inversion Hv; subst. inversion Hn; subst. cbn [run_seq positions] in *.
    unfold bind in Hr. destruct (run_op o w) as [r w1|? ?| | |] eqn:E1; try discriminate.
    destruct (run_seq os w1) as [rs1 w2|? ?| | |] eqn:E2; try discriminate.
    unfold ret in Hr. inversion Hr; subst.
    destruct (run_op_pos w o r w1) as [-> Hp]; auto.
    pose proof (run_op_spec w o Hok) as Hs. rewrite E1 in Hs. destruct Hs as (Hok1 & _); auto.
    f_equal. rewrite <- Hp. eapply IH; eauto.
Qed.

End Cfg.
End StorageHist.
