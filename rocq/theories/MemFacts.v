(** * MemFacts: reading and writing bytes and words. *)
From Verif Require Import Base Types Storage Spec ArithFacts.
From Coq Require Import ZifyBool ZifyNat ZifyN.
Local Open Scope N_scope.

Lemma le_bytes_length n : forall x, length (le_bytes n x) = n.
Proof. induction n; intros; cbn; auto. Qed.

Lemma le_num_le_bytes n : forall x, le_num (le_bytes n x) = x mod 256 ^ N.of_nat n.
Proof.
  induction n as [|n IH]; intros x.
  - cbn. rewrite N.mod_1_r. reflexivity.
  - cbn [le_bytes le_num]. rewrite IH.
    rewrite Nat2N.inj_succ, N.pow_succ_r'.
    rewrite N.mod_mul_r; [reflexivity|lia|apply N.pow_nonzero; lia].
Qed.

Lemma nth_error_app_off {A} (l1 l2 : list A) i :
  nth_error (l1 ++ l2) (length l1 + i) = nth_error l2 i.
Proof. rewrite nth_error_app2 by lia. f_equal; lia. Qed.

Section Mem.
Context {P : Params}.

Lemma to_bytes_length n x : length (to_bytes n x) = n.
Proof. unfold to_bytes. destruct pBE; [rewrite rev_length|]; apply le_bytes_length. Qed.

Lemma of_to_bytes n x : x < 256 ^ N.of_nat n -> of_bytes (to_bytes n x) = x.
Proof.
  intros H. unfold of_bytes, to_bytes. destruct pBE.
  - rewrite rev_involutive, le_num_le_bytes. apply N.mod_small; exact H.
  - rewrite le_num_le_bytes. apply N.mod_small; exact H.
Qed.

Lemma umod_256 : umod = 256 ^ N.of_nat (N.to_nat pW).
Proof.
  unfold umod. rewrite N2Nat.id. change 256 with (2 ^ 8). rewrite <- N.pow_mul_r. reflexivity.
Qed.

(** ** read_bytes *)
Lemma read_bytes_ext n : forall m m' a a',
  (forall i, i < N.of_nat n -> m (a + i) = m' (a' + i)) ->
  read_bytes m a n = read_bytes m' a' n.
Proof.
  induction n as [|n IH]; intros m m' a a' H; [reflexivity|]. cbn [read_bytes].
  specialize (H 0 ltac:(lia)) as H0. rewrite !N.add_0_r in H0. rewrite H0.
  destruct (m' a'); [|reflexivity].
  rewrite (IH m m' (a + 1) (a' + 1)); [reflexivity|].
  intros i Hi. rewrite <- !N.add_assoc. apply H. lia.
Qed.

Lemma read_bytes_list l : forall m a,
  (forall i, i < N.of_nat (length l) -> m (a + i) = nth_error l (N.to_nat i)) ->
  read_bytes m a (length l) = Some l.
Proof.
  induction l as [|b l IH]; intros m a H; [reflexivity|]. cbn [length read_bytes].
  specialize (H 0 ltac:(cbn [length]; lia)) as H0. rewrite N.add_0_r in H0. cbn in H0. rewrite H0.
  rewrite IH; [reflexivity|].
  intros i Hi. rewrite <- N.add_assoc. rewrite H by (cbn [length]; lia).
  replace (N.to_nat (1 + i)) with (S (N.to_nat i)) by lia. reflexivity.
Qed.

Lemma read_bytes_cells n : forall m a l,
  read_bytes m a n = Some l -> length l = n /\
  forall i, i < N.of_nat n -> m (a + i) = nth_error l (N.to_nat i).
Proof.
  induction n as [|n IH]; intros m a l H; cbn [read_bytes] in H.
  - inversion H. split; [reflexivity|]. intros; lia.
  - destruct (m a) as [b|] eqn:Eb; [|discriminate].
    destruct (read_bytes m (a + 1) n) as [bs|] eqn:Er; [|discriminate].
    inversion H; subst. destruct (IH _ _ _ Er) as [Hl Hc]. split; [cbn; auto|].
    intros i Hi. destruct (N.eq_dec i 0) as [->|Hn].
    + rewrite N.add_0_r. exact Eb.
    + replace (a + i) with (a + 1 + (i - 1)) by lia. rewrite Hc by lia.
      replace (N.to_nat i) with (S (N.to_nat (i - 1))) by lia. reflexivity.
Qed.

Lemma read_bytes_app n1 n2 : forall m a l1 l2,
  read_bytes m a n1 = Some l1 -> read_bytes m (a + N.of_nat n1) n2 = Some l2 ->
  read_bytes m a (n1 + n2) = Some (l1 ++ l2).
Proof.
  induction n1 as [|n1 IH]; intros m a l1 l2 H1 H2.
  - cbn in H1. inversion H1; subst. rewrite N.add_0_r in H2. exact H2.
  - cbn [read_bytes plus] in *.
    destruct (m a); [|discriminate]. destruct (read_bytes m (a + 1) n1) as [bs|] eqn:Er; [|discriminate].
    inversion H1; subst.
    erewrite IH; [reflexivity|exact Er|].
    replace (a + 1 + N.of_nat n1) with (a + N.of_nat (S n1)) by lia. exact H2.
Qed.

Lemma read_int_ext m m' a a' sz :
  (forall i, i < sz -> m (a + i) = m' (a' + i)) -> read_int m a sz = read_int m' a' sz.
Proof.
  intros H. unfold read_int. f_equal. apply read_bytes_ext. intros i Hi. apply H. lia.
Qed.

Lemma read_word_ext m m' a a' :
  (forall i, i < pW -> m (a + i) = m' (a' + i)) -> read_word m a = read_word m' a'.
Proof. apply read_int_ext. Qed.

Lemma read_word_src m a x :
  x < umod -> (forall i, i < pW -> m (a + i) = word_src x i) -> read_word m a = Some x.
Proof.
  intros Hx H. unfold read_word, read_int.
  pose proof (to_bytes_length (N.to_nat pW) x) as Hl.
  rewrite <- Hl at 1. rewrite read_bytes_list.
  - cbn. f_equal. apply of_to_bytes. rewrite <- umod_256. exact Hx.
  - intros i Hi. rewrite Hl in Hi. apply H. lia.
Qed.

Lemma read_int_0 m a : read_int m a 0 = Some 0.
Proof. unfold read_int. cbn. unfold of_bytes. destruct pBE; reflexivity. Qed.

(** ** blit *)
Lemma blit_in b p n src i : p <= i -> i < p + n -> blit b p n src i = src (i - p).
Proof.
  intros H1 H2. unfold blit.
  rewrite (proj2 (N.leb_le _ _) H1), (proj2 (N.ltb_lt _ _) H2). reflexivity.
Qed.

Lemma blit_out b p n src i : i < p \/ p + n <= i -> blit b p n src i = b i.
Proof.
  intros H. unfold blit. destruct (N.leb_spec p i); [|reflexivity].
  rewrite (proj2 (N.ltb_ge i (p + n))) by lia. reflexivity.
Qed.

Lemma two_words_lo_hi (x y : N) i :
  i < pW -> bytes_src (to_bytes (N.to_nat pW) x ++ to_bytes (N.to_nat pW) y) i = word_src x i /\
            bytes_src (to_bytes (N.to_nat pW) x ++ to_bytes (N.to_nat pW) y) (pW + i) = word_src y i.
Proof.
  intros Hi. unfold bytes_src, word_src. split.
  - rewrite nth_error_app1; [reflexivity|]. rewrite to_bytes_length. lia.
  - replace (N.to_nat (pW + i)) with (length (to_bytes (N.to_nat pW) x) + N.to_nat i)%nat.
    + apply nth_error_app_off.
    + rewrite to_bytes_length. lia.
Qed.

(** ** Reading a discriminant *)
Lemma read_discr_ext m m' a a' d :
  match d with
  | DSingle _ => True
  | DTag off sz _ | DNiche off sz _ _ => forall i, i < sz -> m (a + off + i) = m' (a' + off + i)
  end -> read_discr m a d = read_discr m' a' d.
Proof.
  destruct d as [k|off sz vals|off sz df ns]; cbn; intros H; auto;
    rewrite (read_int_ext _ _ _ _ _ H); reflexivity.
Qed.

(** ** Word alignment *)
Lemma words_apart q1 q2 : 0 < pW -> (pW | q1) -> (pW | q2) -> q1 <> q2 ->
  q1 + pW <= q2 \/ q2 + pW <= q1.
Proof.
  intros Hp [x ->] [y ->] Hne.
  assert (x <> y) by congruence.
  assert (x + 1 <= y \/ y + 1 <= x) as [H1|H1] by lia.
  - left. replace (x * pW + pW) with ((x + 1) * pW) by lia. apply N.mul_le_mono_r. exact H1.
  - right. replace (y * pW + pW) with ((y + 1) * pW) by lia. apply N.mul_le_mono_r. exact H1.
Qed.

End Mem.
