(** * MachineRun: running the machine, to exhibit concrete executions. *)
From Verif Require Import Base Types Storage Spec Prog Alone Confined Machine.
From Coq Require Import Arith ZifyBool ZifyNat ZifyN.
Local Open Scope N_scope.

Definition in_b (x a n : N) : bool := (a <=? x) && (x <? a + n).
Definition apart_b (a n b k : N) : bool := (a + n <=? b) || (b + k <=? a).
Definition within_b (bs : list (N * N)) (a n : N) : bool :=
  (n =? 0) || existsb (fun r => (fst r <=? a) && (a + n <=? fst r + snd r)) bs.
Definition blk_eqb (x y : blk) : bool := if blk_eq_dec x y then true else false.
Definition owner_is (i : nat) (b : blk) : bool := match b_own b with Some j => Nat.eqb j i | None => false end.
Definition owns_b (live : list blk) (i : nat) (a n : N) : bool :=
  (n =? 0) || existsb (fun b => owner_is i b && (b_addr b <=? a) && (a + n <=? b_addr b + b_size b)) live.

Section Run.
Context {P : Params} {J S A : Type}.
Notation gstate := (gstate J S A).
Notation task := (task J S A).

(** The address [a] may be the answer; [rs] are the ranges read by all the tasks. *)
Definition answer_b (rs : list (N * N)) (live : list blk) (size al a : N) : bool :=
  negb (a =? 0) && (0 <? al) && (a mod al =? 0) && (a + size <? umod)
  && forallb (fun b => apart_b a size (b_addr b) (b_size b)) live
  && forallb (fun r => apart_b a size (fst r) (snd r)) rs.

(** The next instruction of task [i], the allocator answering [a]. *)
Definition run_task (rs : list (N * N)) (st : gstate) (i : nat) (a : N) : option gstate :=
  match g_tasks st i with
  | None => None
  | Some t =>
      let go m live p := Some (mkG m live (set_task (g_tasks st) i (Some (with_prog t p)))) in
      let m := g_mem st in
      let live := g_live st in
      match tk_prog t with
      | Done _ => None
      | IAlloc size al k =>
          if (0 <? size) && layout_legal size al && answer_b rs live size al a
          then go (fun x => if in_b x a size then None else m x) (mkBlk a size al (Some i) :: live) (k a) else None
      | IRealloc addr old al new k =>
          let b := mkBlk addr old al (Some i) in
          if existsb (blk_eqb b) live && (0 <? new) && layout_legal new al && answer_b rs (remove blk_eq_dec b live) new al a
          then go (fun x => if in_b x a new then if x - a <? old then m (addr + (x - a)) else None else m x)
                  (mkBlk a new al (Some i) :: remove blk_eq_dec b live) (k a) else None
      | IDealloc addr size al k =>
          let b := mkBlk addr size al (Some i) in
          if existsb (blk_eqb b) live then go m (remove blk_eq_dec b live) k else None
      | ICopy src dst n k =>
          if within_b (tk_reads t) src n && owns_b live i dst n
          then go (fun x => if in_b x dst n then m (src + (x - dst)) else m x) live k else None
      | IStore dst n data k =>
          if owns_b live i dst n
          then go (fun x => if in_b x dst n then data (x - dst) else m x) live k else None
      | ILoad a n k => if within_b (tk_reads t) a n then go m live (k (cells m a n)) else None
      | IRead a n k => if owns_b live i a n then go m live (k (cells m a n)) else None
      end
  end.

(** Tasks in the order of a schedule, with the answers of the allocator. *)
Fixpoint run_sched (rs : list (N * N)) (l : list (nat * N)) (st : gstate) : option gstate :=
  match l with
  | [] => Some st
  | (i, a) :: l' => match run_task rs st i a with Some st' => run_sched rs l' st' | None => None end
  end.

Definition reads_listed (rs : list (N * N)) (st : gstate) : Prop :=
  forall j t r, g_tasks st j = Some t -> In r (tk_reads t) -> In r rs.

Lemma in_b_spec x a n : in_b x a n = true <-> in_range x a n.
Proof. unfold in_b, in_range. lia. Qed.
Lemma in_b_false x a n : ~ in_range x a n -> in_b x a n = false.
Proof. unfold in_b, in_range. lia. Qed.
Lemma within_b_spec bs a n : within_b bs a n = true -> within bs a n.
Proof.
  unfold within_b, within. intros H. apply orb_prop in H. destruct H as [H|H]; [left; lia|right].
  apply existsb_exists in H. destruct H as (r & R1 & R2). exists r. split; [exact R1|lia].
Qed.
Lemma owns_b_spec live i a n : owns_b live i a n = true -> owns live i a n.
Proof.
  unfold owns_b, owns. intros H. apply orb_prop in H. destruct H as [H|H]; [left; lia|right].
  apply existsb_exists in H. destruct H as (b & R1 & R2). exists b. unfold owner_is in R2.
  destruct (b_own b) as [j|]; [|discriminate]. repeat (apply andb_prop in R2; destruct R2 as [R2 ?]).
  apply Nat.eqb_eq in R2. subst j. split; [exact R1|]. split; [reflexivity|lia].
Qed.
Lemma has_blk b live : existsb (blk_eqb b) live = true -> In b live.
Proof.
  intros H. apply existsb_exists in H. destruct H as (c & H1 & H2). unfold blk_eqb in H2. destruct (blk_eq_dec b c); [subst; exact H1|discriminate].
Qed.
Lemma answer_b_spec rs (st : gstate) live size al a : reads_listed rs st -> answer_b rs live size al a = true ->
  a <> 0 /\ answer st live size al a.
Proof.
  intros Hl H. unfold answer_b in H. repeat (apply andb_prop in H; destruct H as [H ?]).
  assert (a <> 0) by (intros ->; cbn in H; lia). split; [assumption|]. right. split; [apply N.mod_divide; lia|]. split; [lia|].
  intros x Hx. split.
  - intros (b & B1 & B2). rewrite forallb_forall in H1. specialize (H1 b B1). unfold apart_b, in_blk, in_range in *. lia.
  - intros (j & t & r & R1 & R2 & R3). rewrite forallb_forall in H0. specialize (H0 r (Hl j t r R1 R2)). unfold apart_b, in_range in *. lia.
Qed.

Lemma run_task_ok adm rs (st st' : gstate) i a : reads_listed rs st -> run_task rs st i a = Some st' ->
  mstep adm st st' /\ reads_listed rs st'.
Proof.
  intros Hl H. unfold run_task in H. destruct (g_tasks st i) as [t|] eqn:Ht; [|discriminate].
  cbv zeta in H.
  assert (Hgo : forall m' live' p', tstep st i (tk_reads t) (tk_prog t) m' live' p' ->
    let st1 := mkG m' live' (set_task (g_tasks st) i (Some (with_prog t p'))) in mstep adm st st1 /\ reads_listed rs st1).
  { intros m' live' p' Hs st1. split; [eapply MTask; eauto|]. intros j t' r Hj Hr. subst st1. cbn [g_tasks] in Hj. unfold set_task in Hj.
    destruct (Nat.eqb_spec j i) as [->|Hne]; [injection Hj as <-; eapply Hl; eauto|eapply Hl; eauto]. }
  destruct (tk_prog t) as [oc|size al k|addr old al new k|addr size al k|src dst n k|dst n data k|ad n k|ad n k] eqn:Ep; [discriminate| | | | | | |].
  - destruct (_ && _) eqn:G in H; [|discriminate]. injection H as <-. repeat (apply andb_prop in G; destruct G as [G ?]).
    destruct (answer_b_spec rs st _ _ _ _ Hl ltac:(eassumption)). apply Hgo. apply TAlloc; auto; [lia| |].
    + intros x Hx. apply in_b_spec in Hx. rewrite Hx. reflexivity.
    + intros x Hx. rewrite in_b_false by exact Hx. reflexivity.
  - destruct (_ && _) eqn:G in H; [|discriminate]. injection H as <-. repeat (apply andb_prop in G; destruct G as [G ?]).
    destruct (answer_b_spec rs st _ _ _ _ Hl ltac:(eassumption)). apply has_blk in G. apply Hgo. apply TRealloc; auto; [lia| |].
    + intros x Hx. apply in_b_spec in Hx. rewrite Hx. reflexivity.
    + intros x Hx Hy. rewrite in_b_false by exact Hx. reflexivity.
  - destruct (existsb _ _) eqn:G in H; [|discriminate]. injection H as <-. apply has_blk in G. apply Hgo. apply TDealloc; auto.
  - destruct (_ && _) eqn:G in H; [|discriminate]. injection H as <-. apply andb_prop in G. destruct G as [G1 G2].
    apply Hgo. apply TCopy; [apply within_b_spec; exact G1|apply owns_b_spec; exact G2|]. intros x. reflexivity.
  - destruct (owns_b _ _ _ _) eqn:G in H; [|discriminate]. injection H as <-. apply Hgo. apply TStore; [apply owns_b_spec; exact G|]. intros x. reflexivity.
  - destruct (within_b _ _ _) eqn:G in H; [|discriminate]. injection H as <-. apply Hgo. apply TLoad. apply within_b_spec. exact G.
  - destruct (owns_b _ _ _ _) eqn:G in H; [|discriminate]. injection H as <-. apply Hgo. apply TRead. apply owns_b_spec. exact G.
Qed.

Theorem run_sched_reachable adm rs l : forall st st', reachable adm st -> reads_listed rs st ->
  run_sched rs l st = Some st' -> reachable adm st'.
Proof.
  induction l as [|[i a] l IH]; intros st st' Hr Hl H; cbn [run_sched] in H; [injection H as <-; exact Hr|].
  destruct (run_task rs st i a) as [st1|] eqn:E; [|discriminate].
  destruct (run_task_ok adm rs st st1 i a Hl E) as [H1 H2]. apply (IH st1); auto. eapply R_step; eauto.
Qed.
(** What a task is, apart from its instructions, never changes. *)
Definition same_task (t t' : task) : Prop := tk_job t' = tk_job t /\ tk_mem t' = tk_mem t /\ tk_reads t' = tk_reads t /\ tk_al t' = tk_al t.
Lemma run_task_keeps rs (st st' : gstate) i a j (t : task) : run_task rs st i a = Some st' -> g_tasks st j = Some t ->
  exists t', g_tasks st' j = Some t' /\ same_task t t'.
Proof.
  intros H Hj. unfold run_task in H. destruct (g_tasks st i) as [t0|] eqn:Ht; [|discriminate].
  cbv zeta in H.
  assert (Hgo : forall m' live' p', exists t', g_tasks (mkG m' live' (set_task (g_tasks st) i (Some (with_prog t0 p')))) j = Some t' /\ same_task t t').
  { intros m' live' p'. cbn [g_tasks]. unfold set_task. destruct (Nat.eqb_spec j i) as [->|Hne].
    - eexists. split; [reflexivity|]. rewrite Ht in Hj. injection Hj as <-. repeat split.
    - exists t. split; [exact Hj|repeat split]. }
  destruct (tk_prog t0); try discriminate;
    match type of H with (if ?b then _ else _) = _ => destruct b; [|discriminate] end; injection H as <-; apply Hgo.
Qed.
Lemma run_sched_keeps rs l : forall (st st' : gstate) j (t : task), run_sched rs l st = Some st' -> g_tasks st j = Some t ->
  exists t', g_tasks st' j = Some t' /\ same_task t t'.
Proof.
  induction l as [|[i a] l IH]; intros st st' j t H Hj; cbn [run_sched] in H.
  - injection H as <-. exists t. split; [exact Hj|repeat split].
  - destruct (run_task rs st i a) as [st1|] eqn:E; [|discriminate].
    destruct (run_task_keeps rs st st1 i a j t E Hj) as (t1 & T1 & T2). destruct (IH st1 st' j t1 H T1) as (t2 & T3 & T4).
    exists t2. split; [exact T3|]. unfold same_task in *. intuition congruence.
Qed.
End Run.
