(** * Frame: everything about a storage but the contents of its buffer, and the
    effect on it of pushing slices: a function of the layouts and lengths only. *)
From Verif Require Import Base Types Storage Spec ArithFacts StorageFacts.
From Coq Require Import ZifyBool ZifyNat ZifyN.
Local Open Scope N_scope.

Section Frame.
Context {P : Params}.

Notation cap w := (s_cap (sw_s w)).
Notation pos w := (s_pos (sw_s w)).
Notation ptr w := (s_ptr (sw_s w)).

Record frame := mkF {
  f_ptr : N;
  f_cap : N;
  f_pos : N;
  f_calls : nat;
  f_trace : list aevent
}.
Definition frame_of (w : sw) : frame := mkF (ptr w) (cap w) (pos w) (sw_calls w) (sw_trace w).

Inductive fres :=
| FOk (f : frame)
| FFull (f : frame)
| FAbort
| FBad.   (* of no bytes (unless empty and there is a buffer), or of more than isize::MAX *)

Definition fpush (f : frame) (l : layout) (n : N) : fres :=
  let st := push_start (f_pos f) l in
  let need := st + l_size l * n in
  if (l_size l =? 0) || ((n =? 0) && (f_cap f =? 0)) || (imax <? l_size l * n) then FBad
  else if need <=? f_cap f then
    FOk (mkF (f_ptr f) (f_cap f) (push_end (f_pos f) l n) (f_calls f) (f_trace f))
  else if MAXC <? need then FFull (mkF (f_ptr f) (f_cap f) st (f_calls f) (f_trace f))
  else
    let c := grown (f_cap f) need in
    let a := orc (f_calls f) c in
    if a =? 0 then FAbort
    else FOk (mkF a c (push_end (f_pos f) l n) (S (f_calls f))
                (f_trace f ++ [if f_cap f =? 0 then EAlloc a c SA
                               else ERealloc (f_ptr f) (f_cap f) SA a c])).

Fixpoint fpushes (ps : list (layout * N)) (f : frame) : fres :=
  match ps with
  | [] => FOk f
  | (l, n) :: ps' => match fpush f l n with FOk f1 => fpushes ps' f1 | r => r end
  end.

Lemma fpushes_app ps1 ps2 : forall f,
  fpushes (ps1 ++ ps2) f = match fpushes ps1 f with FOk f1 => fpushes ps2 f1 | r => r end.
Proof.
  induction ps1 as [|[l n] ps1 IH]; intros f; cbn [fpushes app]; [reflexivity|].
  destruct (fpush f l n); auto.
Qed.

Lemma fpushes_pos ps : forall f f', fpushes ps f = FOk f' -> f_pos f' = end_pos (f_pos f) ps.
Proof.
  induction ps as [|[l n] ps IH]; intros f f' H; cbn [fpushes end_pos] in *; [inversion H; reflexivity|].
  destruct (fpush f l n) as [f1| | |] eqn:E; try discriminate. rewrite (IH _ _ H). f_equal.
  unfold fpush in E. destruct (_ || _); [discriminate|]. destruct (_ <=? _).
  - inversion E; reflexivity.
  - destruct (MAXC <? _); [discriminate|]. cbv zeta in E.
    destruct (_ =? 0); [discriminate|]. inversion E. reflexivity.
Qed.

Lemma frame_alike w w' : frame_of w = frame_of w' -> alike w w'.
Proof. unfold frame_of, alike. intros H. inversion H. auto. Qed.

Section Cfg.
Hypothesis C : cfg_ok.
Hypothesis HA : alloc_ok.

Lemma end_ge ps : forall p, p <= end_pos p ps.
Proof.
  induction ps as [|[l n] ps IH]; intros p; cbn [end_pos]; [lia|].
  pose proof (IH (push_end p l n)). pose proof (c_VA_pos C).
  enough (p <= push_end p l n) by lia. unfold push_end, push_start.
  pose proof (round_up_ge p (N.max (l_align l) VA) ltac:(lia)).
  pose proof (round_up_ge (round_up p (N.max (l_align l) VA) + l_size l * n) VA ltac:(lia)). lia.
Qed.

(** What fits the capacity moves nothing. *)
Lemma fpushes_fit ps : forall f f',
  fpushes ps f = FOk f' -> end_pos (f_pos f) ps <= f_cap f ->
  f_ptr f' = f_ptr f /\ f_cap f' = f_cap f /\ f_calls f' = f_calls f /\ f_trace f' = f_trace f.
Proof.
  induction ps as [|[l n] ps IH]; intros f f' H Hle; cbn [fpushes end_pos] in *; [inversion H; auto|].
  assert (Hn : push_start (f_pos f) l + l_size l * n <= f_cap f).
  { pose proof (push_end_ge C (f_pos f) l n). pose proof (end_ge ps (push_end (f_pos f) l n)). lia. }
  unfold fpush in H. destruct (_ || _); [discriminate|].
  rewrite (proj2 (N.leb_le _ _) Hn) in H.
  apply IH in H; [exact H|exact Hle].
Qed.

(** push_slice acts on the frame as [fpush]. *)
Lemma push_frame w l n d :
  storage_ok w -> good_layout l -> 0 < l_size l -> 0 < n \/ 0 < cap w -> l_size l * n <= imax ->
  match push_slice l n d w with
  | Ok _ w' => fpush (frame_of w) l n = FOk (frame_of w')
  | Panic e w' => e = PCapacity /\ fpush (frame_of w) l n = FFull (frame_of w')
  | Abort => fpush (frame_of w) l n = FAbort
  | UB | OutOfFuel => False
  end.
Proof.
  intros Hok Hg Hs Hn Hsz. rewrite (push_slice_eq C HA) by (auto; tauto).
  unfold fpush. cbn [f_pos f_cap f_calls f_trace f_ptr frame_of].
  rewrite (proj2 (N.eqb_neq (l_size l) 0)) by lia.
  replace ((n =? 0) && (cap w =? 0)) with false by lia.
  rewrite (proj2 (N.ltb_ge imax (l_size l * n))) by lia. cbn [orb].
  unfold bind, grow_to. cbn [at_pos with_store sw_s s_cap sw_calls].
  destruct (_ <=? _); [reflexivity|]. destruct (MAXC <? _); [split; reflexivity|].
  cbv zeta. destruct (_ =? 0); reflexivity.
Qed.

(** A successful or stopped sequence of pushes, as the storage's own calls. *)
Lemma fpushes_run ps : forall w,
  storage_ok w -> Forall (fun x => good_layout (fst x)) ps ->
  match fpushes ps (frame_of w) with
  | FOk f => exists rs w', run_seq (push_ops ps) w = Ok rs w' /\ frame_of w' = f
  | FFull f => exists w', run_seq (push_ops ps) w = Panic PCapacity w' /\ frame_of w' = f
  | FAbort => run_seq (push_ops ps) w = Abort
  | FBad => True
  end.
Proof.
  induction ps as [|[l n] ps IH]; intros w Hok Hg.
  - cbn. exists [], w. auto.
  - inversion Hg as [|? ? Hl Hps]; subst. cbn [fst] in Hl.
    cbn [fpushes push_ops map run_seq fst snd run_op]. fold (push_ops ps).
    destruct ((l_size l =? 0) || ((n =? 0) && (cap w =? 0))) eqn:E0.
    { unfold fpush. cbn [f_cap frame_of]. rewrite E0. exact I. }
    destruct (imax <? l_size l * n) eqn:E1.
    { unfold fpush. rewrite E1, Bool.orb_true_r. exact I. }
    assert (Hs : 0 < l_size l) by lia.
    assert (Hn : 0 < n \/ 0 < cap w) by lia.
    pose proof (push_frame w l n no_mem Hok Hl Hs Hn ltac:(lia)) as Hp.
    pose proof (push_slice_spec C HA w l n no_mem Hok Hl Hs ltac:(lia) ltac:(tauto)) as Hsp.
    unfold bind, some_pos, bind.
    destruct (push_slice l n no_mem w) as [p w1|e w1| | |].
    + rewrite Hp. destruct Hsp as (_ & _ & Hok1 & _). specialize (IH w1 Hok1 Hps).
      unfold ret. destruct (fpushes ps (frame_of w1)).
      * destruct IH as (rs & w' & -> & Hf). eexists _, w'. split; [reflexivity|exact Hf].
      * destruct IH as (w' & -> & Hf). exists w'. auto.
      * rewrite IH. reflexivity.
      * exact I.
    + destruct Hp as [-> ->]. exists w1. auto.
    + rewrite Hp. reflexivity.
    + contradiction.
    + contradiction.
Qed.

End Cfg.
End Frame.
