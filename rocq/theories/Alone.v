(** * Alone: a program of Prog.v run by itself is the model of Storage.v.

    [alone m p L]: run [p] to the end with its own block of memory and the allocator [orc], its
    input being the constant memory [m].  The theorems of the rest of this development, about
    Storage.v, thereby hold of the programs; Machine.v then puts programs together. *)
From Verif Require Import Base Types Storage Prog.
From Coq Require Import ZifyBool ZifyNat ZifyN.
Local Open Scope N_scope.

(** What a program run by itself has: its block (address, size, alignment; size 0: none), the
    bytes in it (0 = first of the block), and the calls made to the allocator so far. *)
Record loc := mkLoc { lc_base : N; lc_size : N; lc_al : N; lc_buf : mem; lc_calls : nat; lc_trace : list aevent }.
Definition loc_new : loc := mkLoc 0 0 1 no_mem 0 [].

(** Nothing, or bytes of the block. *)
Definition in_block (L : loc) (a n : N) : bool :=
  (n =? 0) || ((lc_base L <=? a) && (a + n <=? lc_base L + lc_size L)).

Definition count_call (L : loc) : loc :=
  mkLoc (lc_base L) (lc_size L) (lc_al L) (lc_buf L) (Datatypes.S (lc_calls L)) (lc_trace L).

Section Alone.
Context {P : Params}.

(** Where the real thing would be undefined, [UB]; so also for a second block (a storage never
    has two). *)
Fixpoint alone {S A} (m : mem) (p : prog S A) (L : loc) : outcome (S * loc) A :=
  match p with
  | Done (Ok a s) => Ok a (s, L)
  | Done (Panic e s) => Panic e (s, L)
  | Done Abort => Abort
  | Done UB => UB
  | Done OutOfFuel => OutOfFuel
  | IAlloc size align k =>
      if (0 <? size) && layout_legal size align && (lc_size L =? 0) then
        let a := orc (lc_calls L) size in
        if a =? 0 then alone m (k 0) (count_call L)
        else alone m (k a)
               (mkLoc a size align no_mem (Datatypes.S (lc_calls L)) (lc_trace L ++ [EAlloc a size align]))
      else UB
  | IRealloc addr old align new k =>
      if (0 <? old) && (0 <? new) && layout_legal old align && layout_legal new align
         && (addr =? lc_base L) && (old =? lc_size L) && (align =? lc_al L) then
        let a := orc (lc_calls L) new in
        if a =? 0 then alone m (k 0) (count_call L)
        else alone m (k a)
               (mkLoc a new align (fun i => if (i <? old) && (i <? new) then lc_buf L i else None)
                  (Datatypes.S (lc_calls L)) (lc_trace L ++ [ERealloc addr old align a new]))
      else UB
  | IDealloc addr size align k =>
      if (0 <? size) && layout_legal size align
         && (addr =? lc_base L) && (size =? lc_size L) && (align =? lc_al L) then
        alone m k (mkLoc addr 0 align no_mem (lc_calls L) (lc_trace L ++ [EDealloc addr size align]))
      else UB
  | ICopy src dst n k =>
      if in_block L dst n then
        alone m k (mkLoc (lc_base L) (lc_size L) (lc_al L) (blit (lc_buf L) (dst - lc_base L) n (mem_from m src))
                     (lc_calls L) (lc_trace L))
      else UB
  | IStore dst n data k =>
      if in_block L dst n then
        alone m k (mkLoc (lc_base L) (lc_size L) (lc_al L) (blit (lc_buf L) (dst - lc_base L) n data)
                     (lc_calls L) (lc_trace L))
      else UB
  | ILoad a n k => alone m (k (cells m a n)) L
  | IRead a n k =>
      if in_block L a n then alone m (k (cells (lc_buf L) (a - lc_base L) n)) L else UB
  end.

Lemma alone_pthen {S S' A B} m (f : A -> S -> prog S' B) g p : forall L,
  alone m (pthen f g p) L =
  match alone m p L with
  | Ok a (s, L') => alone m (f a s) L'
  | Panic e (s, L') => alone m (g e s) L'
  | Abort => Abort
  | UB => UB
  | OutOfFuel => OutOfFuel
  end.
Proof.
  induction p as [o|size align k IH|ad old al new k IH|ad size al k IH|src dst n k IH|dst n data k IH|ad n k IH|ad n k IH];
    intros L; cbn [pthen alone].
  - destruct o; reflexivity.
  - destruct (_ && _); [|reflexivity]. cbv zeta. destruct (_ =? 0); apply IH.
  - destruct (_ && _); [|reflexivity]. cbv zeta. destruct (_ =? 0); apply IH.
  - destruct (_ && _); [|reflexivity]. apply IH.
  - destruct (in_block _ _ _); [|reflexivity]. apply IH.
  - destruct (in_block _ _ _); [|reflexivity]. apply IH.
  - apply IH.
  - destruct (in_block _ _ _); [|reflexivity]. apply IH.
Qed.

(** ** The same run *)

(** Fields [h] and local state [L] are the storage [w] of Storage.v. *)
Definition same_storage (h : hdr) (L : loc) (w : sw) : Prop :=
  h_ptr h = s_ptr (sw_s w) /\ h_cap h = s_cap (sw_s w) /\ h_pos h = s_pos (sw_s w) /\
  (forall i, lc_buf L i = s_buf (sw_s w) i) /\ lc_calls L = sw_calls w /\ lc_trace L = sw_trace w /\
  lc_size L = s_cap (sw_s w) /\ (0 < s_cap (sw_s w) -> lc_base L = s_ptr (sw_s w) /\ lc_al L = SA).

(** Equal outcomes, with final states related by [Q], by [X] after a panic. *)
Definition same_outcomeq {S T A} (Q : A -> S -> loc -> T -> Prop) (X : S -> loc -> T -> Prop)
    (x : outcome (S * loc) A) (y : outcome T A) : Prop :=
  match x, y with
  | Ok a (s, L), Ok b t => a = b /\ Q a s L t
  | Panic e (s, L), Panic e' t => e = e' /\ X s L t
  | Abort, Abort => True
  | UB, UB => True
  | OutOfFuel, OutOfFuel => True
  | _, _ => False
  end.
Definition simq {S T A} (m : mem) (R : S -> loc -> T -> Prop) (Q : A -> S -> loc -> T -> Prop) (X : S -> loc -> T -> Prop)
    (hm : HM S A) (c : M T A) : Prop :=
  forall s L t, R s L t -> same_outcomeq Q X (alone m (hm s) L) (c t).

Lemma simq_bind {S T A B} m R (Mid : A -> S -> loc -> T -> Prop) (Q : B -> S -> loc -> T -> Prop) X
    (hm : HM S A) (c : M T A) hf f :
  simq m R Mid X hm c -> (forall a, simq m (Mid a) Q X (hf a) (f a)) -> simq m R Q X (hbind hm hf) (bind c f).
Proof.
  intros H1 H2 s L t HR. unfold hbind, bind. rewrite alone_pthen. specialize (H1 s L t HR).
  unfold same_outcomeq in H1. destruct (alone m (hm s) L) as [a [s' L']|e [s' L']| | |], (c t) as [b t'|e' t'| | |]; try contradiction; auto.
  destruct H1 as [<- HR']. apply H2. exact HR'.
Qed.
Lemma simq_weaken {S T A} m (R R' : S -> loc -> T -> Prop) (Q Q' : A -> S -> loc -> T -> Prop) (X X' : S -> loc -> T -> Prop) hm c :
  (forall s L t, R' s L t -> R s L t) -> (forall a s L t, Q a s L t -> Q' a s L t) -> (forall s L t, X s L t -> X' s L t) ->
  simq m R Q X hm c -> simq m R' Q' X' hm c.
Proof.
  intros H1 H2 H3 H s L t HR. specialize (H s L t (H1 _ _ _ HR)). unfold same_outcomeq in *.
  destruct (alone m (hm s) L) as [a [s' L']|e [s' L']| | |], (c t) as [b t'|e' t'| | |]; try contradiction; auto;
  destruct H; split; auto.
Qed.

(** Equal outcomes, with states related by [R]. *)
Section Sim.
Variable m : mem.
Context {S T : Type}.
Variable R : S -> loc -> T -> Prop.

Definition sim {A} (hm : HM S A) (c : M T A) : Prop :=
  simq m R (fun _ => R) R hm c.

Lemma sim_bind {A B} (hm : HM S A) (c : M T A) (hf : A -> HM S B) (f : A -> M T B) :
  sim hm c -> (forall a, sim (hf a) (f a)) -> sim (hbind hm hf) (bind c f).
Proof.
  intros H1 H2. apply (simq_bind m R (fun _ => R)); assumption.
Qed.

Lemma sim_ret {A} (a : A) : sim (hret a) (ret a).
Proof. intros s L t HR. cbn. auto. Qed.

(** Computations that do not look at the state at all. *)
Definition stateless {A} (mh : forall X, M X A) : Prop :=
  forall X Y (x : X) (y : Y), match mh X x, mh Y y with
    | Ok a x', Ok b y' => a = b /\ x' = x /\ y' = y
    | Panic e x', Panic e' y' => e = e' /\ x' = x /\ y' = y
    | Abort, Abort | UB, UB | OutOfFuel, OutOfFuel => True
    | _, _ => False end.

Lemma sim_stateless {A} (mh : forall X, M X A) : stateless mh -> sim (pu (mh S)) (mh T).
Proof.
  intros Hs s L t HR. unfold pu. specialize (Hs S T s t).
  destruct (mh S s) as [a s'|e s'| | |], (mh T t) as [b t'|e' t'| | |]; try contradiction; cbn [alone same_outcomeq]; auto.
  - destruct Hs as (-> & -> & ->). auto.
  - destruct Hs as (-> & -> & ->). auto.
Qed.

Lemma sim_if {A} (b : bool) (h1 h2 : HM S A) (c1 c2 : M T A) :
  sim h1 c1 -> sim h2 c2 -> sim (if b then h1 else h2) (if b then c1 else c2).
Proof. intros; destruct b; assumption. Qed.

Lemma sim_gets {A} (f : S -> A) (g : T -> A) : (forall s L t, R s L t -> f s = g t) -> sim (pu (gets f)) (gets g).
Proof. intros H s L t HR. cbn. split; [eauto|exact HR]. Qed.

Lemma sim_ext {A} (hm : HM S A) (c c' : M T A) : (forall t, c t = c' t) -> sim hm c -> sim hm c'.
Proof. intros He Hs s L t HR. rewrite <- He. apply Hs. exact HR. Qed.
Lemma sim_ub {A} : sim (@hub S A) ub.
Proof. intros s L t HR. exact I. Qed.
End Sim.

(** Stateless pieces. *)
Lemma sl_ret {A} (a : A) : stateless (fun X => ret a).
Proof. intros X Y x y. cbn. auto. Qed.
Lemma sl_panics {A} e : stateless (fun X => @panics X A e).
Proof. intros X Y x y. cbn. auto. Qed.
Lemma sl_bind {A B} (mh : forall X, M X A) (f : A -> forall X, M X B) :
  stateless mh -> (forall a, stateless (f a)) -> stateless (fun X => bind (mh X) (fun a => f a X)).
Proof.
  intros H1 H2 X Y x y. unfold bind. specialize (H1 X Y x y).
  destruct (mh X x) as [a x'|e x'| | |], (mh Y y) as [b y'|e' y'| | |]; try contradiction; auto.
  destruct H1 as (-> & -> & ->). apply H2.
Qed.
Lemma sl_if {A} (b : bool) (m1 m2 : forall X, M X A) :
  stateless m1 -> stateless m2 -> stateless (fun X => if b then m1 X else m2 X).
Proof. intros; destruct b; assumption. Qed.
Lemma sl_add a b : stateless (fun X => @add_u P X a b).
Proof. unfold add_u. apply sl_if; [apply sl_ret|apply sl_if; [apply sl_panics|apply sl_ret]]. Qed.
Lemma sl_sub a b : stateless (fun X => @sub_u P X a b).
Proof. unfold sub_u. apply sl_if; [apply sl_ret|apply sl_if; [apply sl_panics|apply sl_ret]]. Qed.
Lemma sl_mul a b : stateless (fun X => @mul_u P X a b).
Proof. unfold mul_u. apply sl_if; [apply sl_ret|apply sl_if; [apply sl_panics|apply sl_ret]]. Qed.
Lemma sl_npot a : stateless (fun X => @next_power_of_two P X a).
Proof. unfold next_power_of_two. apply sl_if; [apply sl_ret|apply sl_if; [apply sl_panics|apply sl_ret]]. Qed.
Lemma sl_assert p b : stateless (fun X => @assert_or X p b).
Proof. unfold assert_or. apply sl_if; [apply sl_ret|apply sl_panics]. Qed.
Lemma sl_dassert (c : forall X, M X bool) : stateless c -> stateless (fun X => @dassert P X (c X)).
Proof.
  intros H. unfold dassert. apply sl_if; [|apply sl_ret].
  apply (sl_bind c (fun b X => if b then ret tt else panics PDebugAssert)); [exact H|].
  intros b. apply sl_if; [apply sl_ret|apply sl_panics].
Qed.
Lemma sl_align_up a b : stateless (fun X => @align_up_to P X a b).
Proof.
  unfold align_up_to. apply (sl_bind (fun X => dassert (ret (is_pow2 b))) (fun _ X => _)); [apply (sl_dassert (fun X => ret _)), sl_ret|intros _].
  apply (sl_bind (fun X => add_u a b) (fun _ X => _)); [apply sl_add|intros s].
  apply (sl_bind (fun X => sub_u s 1) (fun _ X => _)); [apply sl_sub|intros s1].
  apply (sl_bind (fun X => sub_u b 1) (fun _ X => _)); [apply sl_sub|intros a1]. apply sl_ret.
Qed.
Lemma sl_is_aligned a b : stateless (fun X => @is_aligned_to P X a b).
Proof.
  unfold is_aligned_to. apply (sl_bind (fun X => dassert (ret (is_pow2 b))) (fun _ X => _)); [apply (sl_dassert (fun X => ret _)), sl_ret|intros _].
  apply (sl_bind (fun X => sub_u b 1) (fun _ X => _)); [apply sl_sub|intros a1]. apply sl_ret.
Qed.
Lemma sl_max_cap a : stateless (fun X => @aligned_max_capacity P X a).
Proof.
  unfold aligned_max_capacity.
  apply (sl_bind (fun X => assert_or PAssert _) (fun _ X => _)); [apply sl_assert|intros _].
  apply (sl_bind (fun X => assert_or PAssert _) (fun _ X => _)); [apply sl_assert|intros _].
  apply (sl_bind (fun X => assert_or PAssert _) (fun _ X => _)); [apply sl_assert|intros _].
  apply (sl_bind (fun X => sub_u _ _) (fun _ X => _)); [apply sl_sub|intros a1]. apply sl_sub.
Qed.
Lemma sl_valid : stateless (fun X => @assert_alignments_valid P X).
Proof.
  unfold assert_alignments_valid.
  do 10 (apply (sl_bind (fun X => assert_or PAssert _) (fun _ X => _)); [apply sl_assert|intros _]).
  apply (sl_bind (fun X => aligned_max_capacity SA) (fun mm X => _)); [apply sl_max_cap|intros mm].
  apply (sl_bind (fun X => assert_or PAssert _) (fun _ X => _)); [apply sl_assert|intros _]. apply sl_assert.
Qed.

(** ** Piece by piece *)
Section Pieces.
Variable m : mem.
Context {S T : Type}.
Variable R : S -> loc -> T -> Prop.
Notation sim := (sim m R).

Lemma sim_pu_bind {A B} (h : M S A) (c : M T A) (hf : A -> M S B) (f : A -> M T B) :
  sim (pu h) c -> (forall a, sim (pu (hf a)) (f a)) -> sim (pu (bind h hf)) (bind c f).
Proof.
  intros H1 H2 s L t HR. specialize (H1 s L t HR). unfold pu, bind in *.
  destruct (h s) as [a s'|e s'| | |], (c t) as [b t'|e' t'| | |]; cbn [alone] in *; try contradiction; auto.
  destruct H1 as [-> HR']. apply H2. exact HR'.
Qed.
Lemma sim_dassert (c : M S bool) (d : M T bool) : sim (pu c) d -> sim (pu (dassert c)) (dassert d).
Proof.
  intros H. unfold dassert. match goal with |- context [if ?b then _ else _] => destruct b end; [|apply sim_ret].
  apply sim_pu_bind; [exact H|]. intros []; [apply sim_ret|].
  intros s L t HR. cbn. auto.
Qed.
Lemma sim_panics {A} e : sim (pu (@panics S A e)) (panics e).
Proof. intros s L t HR. cbn. auto. Qed.
Lemma sim_pu_if {A} (b : bool) (h1 h2 : M S A) (c1 c2 : M T A) :
  sim (pu h1) c1 -> sim (pu h2) c2 -> sim (pu (if b then h1 else h2)) (if b then c1 else c2).
Proof. intros; destruct b; assumption. Qed.
Lemma sim_pu_ret {A} (a : A) : sim (pu (ret a)) (ret a).
Proof. apply sim_ret. Qed.
Lemma sim_add a b : sim (pu (add_u a b)) (add_u a b).
Proof. apply (sim_stateless m R (fun X => add_u a b)), sl_add. Qed.
Lemma sim_sub a b : sim (pu (sub_u a b)) (sub_u a b).
Proof. apply (sim_stateless m R (fun X => sub_u a b)), sl_sub. Qed.
Lemma sim_mul a b : sim (pu (mul_u a b)) (mul_u a b).
Proof. apply (sim_stateless m R (fun X => mul_u a b)), sl_mul. Qed.
Lemma sim_npot a : sim (pu (next_power_of_two a)) (next_power_of_two a).
Proof. apply (sim_stateless m R (fun X => next_power_of_two a)), sl_npot. Qed.
Lemma sim_assert e b : sim (pu (assert_or e b)) (assert_or e b).
Proof. apply (sim_stateless m R (fun X => assert_or e b)), sl_assert. Qed.
Lemma sim_align_up a b : sim (pu (align_up_to a b)) (align_up_to a b).
Proof. apply (sim_stateless m R (fun X => align_up_to a b)), sl_align_up. Qed.
Lemma sim_is_aligned a b : sim (pu (is_aligned_to a b)) (is_aligned_to a b).
Proof. apply (sim_stateless m R (fun X => is_aligned_to a b)), sl_is_aligned. Qed.
Lemma sim_max_cap a : sim (pu (aligned_max_capacity a)) (aligned_max_capacity a).
Proof. apply (sim_stateless m R (fun X => aligned_max_capacity a)), sl_max_cap. Qed.
Lemma sim_valid : sim (pu assert_alignments_valid) assert_alignments_valid.
Proof. apply (sim_stateless m R (fun X => assert_alignments_valid)), sl_valid. Qed.
End Pieces.

Ltac sim1 :=
  first [ apply sim_ret | apply sim_pu_ret | apply sim_panics | apply sim_add | apply sim_sub | apply sim_mul
        | apply sim_npot | apply sim_assert | apply sim_align_up | apply sim_is_aligned | apply sim_max_cap
        | apply sim_valid | apply sim_ub
        | apply sim_dassert
        | apply sim_bind; [|intros ?]
        | apply sim_pu_bind; [|intros ?]
        | apply sim_pu_if
        | apply sim_if ].
Ltac sims := repeat sim1.

(** ** AlignedVec *)
Section Vec.
Variable m : mem.
Notation sim := (sim m same_storage).

Lemma sim_pos : sim hpos get_pos.
Proof. apply sim_gets. intros s L t HR. apply HR. Qed.
Lemma sim_cap : sim hcap get_cap.
Proof. apply sim_gets. intros s L t HR. apply HR. Qed.
Lemma sim_ptr : sim hp get_ptr.
Proof. apply sim_gets. intros s L t HR. apply HR. Qed.
Lemma sim_put_pos n : sim (hput_pos n) (put_pos n).
Proof. intros s L t HR. cbn. unfold same_storage in *. cbn. intuition. Qed.

(** The allocator has answered [p] for a block of [c] bytes, the fields not yet updated. *)
Definition answered (c : N) (p : N) (h : hdr) (L : loc) (w : sw) : Prop :=
  h_cap h = s_cap (sw_s w) /\ h_pos h = s_pos (sw_s w) /\
  (forall i, lc_buf L i = s_buf (sw_s w) i) /\ lc_calls L = sw_calls w /\ lc_trace L = sw_trace w /\
  lc_size L = c /\ lc_base L = p /\ lc_al L = SA.

Lemma sim_put c p : simq m (answered c p) (fun _ => same_storage) same_storage
  (hset_ptr p ;;~ hset_cap c) (put_ptr p ;;; put_cap c).
Proof.
  intros s L t HR. cbn. split; [reflexivity|]. unfold answered, same_storage in *. cbn. intuition (try congruence).
Qed.

Definition empty_storage (h : hdr) (L : loc) (w : sw) : Prop := same_storage h L w /\ s_cap (sw_s w) = 0.
Lemma sim_empty_same {A} (hm : HM hdr A) c : Alone.sim m empty_storage hm c -> simq m empty_storage (fun _ => empty_storage) same_storage hm c.
Proof. apply simq_weaken; auto. intros s L t [H _]. exact H. Qed.
Lemma sim_alloc c : simq m empty_storage (answered c) same_storage (h_alloc c) (alloc c).
Proof.
  unfold h_alloc, alloc.
  apply simq_bind with (Mid := fun _ => empty_storage); [apply sim_empty_same; sims|].
  intros _. apply simq_bind with (Mid := fun _ => empty_storage); [apply sim_empty_same; sims|].
  intros _ s L t [HR H0]. cbn [alone]. pose proof HR as (E1 & E2 & E3 & E4 & E5 & E6 & E7 & E8).
  rewrite E7, H0, E5. change (0 =? 0) with true. rewrite andb_true_r.
  destruct (_ && _); [|exact Logic.I]. cbv zeta. destruct (_ =? 0) eqn:E; cbn [alone]; [exact Logic.I|].
  cbn [same_outcomeq]. split; [reflexivity|]. unfold answered. cbn. rewrite E6. intuition congruence.
Qed.

Lemma sim_realloc c : simq m same_storage (answered c) same_storage (h_realloc c) (realloc c).
Proof.
  unfold h_realloc, realloc. apply simq_bind with (Mid := fun _ => same_storage); [apply sim_cap|]. intros cap.
  do 3 (apply simq_bind with (Mid := fun _ => same_storage); [sims|intros _]).
  intros s L t HR. cbn [alone]. pose proof HR as (E1 & E2 & E3 & E4 & E5 & E6 & E7 & E8).
  rewrite E2, E1. destruct (0 <? s_cap (sw_s t)) eqn:Hc; cbn [andb]; [|exact Logic.I].
  destruct (E8 ltac:(lia)) as [B1 B2]. rewrite B1, B2, E7, E5, !N.eqb_refl, !andb_true_r.
  destruct (_ && _); [|exact Logic.I]. cbv zeta. destruct (_ =? 0) eqn:E; cbn [alone]; [exact Logic.I|].
  cbn [same_outcomeq]. split; [reflexivity|]. unfold answered. cbn. rewrite E6. intuition.
  rewrite E4. reflexivity.
Qed.

Lemma sim_dealloc : simq m same_storage (fun _ h L w => answered 0 (lc_base L) h L w) same_storage
  h_dealloc dealloc.
Proof.
  unfold h_dealloc, dealloc. apply simq_bind with (Mid := fun _ => same_storage); [apply sim_cap|]. intros cap.
  apply simq_bind with (Mid := fun _ => same_storage); [sims|intros _].
  intros s L t HR. cbn [alone]. pose proof HR as (E1 & E2 & E3 & E4 & E5 & E6 & E7 & E8).
  rewrite E2, E1. destruct (0 <? s_cap (sw_s t)) eqn:Hc; cbn [andb]; [|exact Logic.I].
  destruct (E8 ltac:(lia)) as [B1 B2]. rewrite B1, B2, E7, !N.eqb_refl, !andb_true_r.
  destruct (layout_legal _ _); [|exact Logic.I]. cbn [alone].
  cbn [same_outcomeq]. split; [reflexivity|]. unfold answered. cbn. rewrite E6. intuition.
Qed.

Lemma sim_with_capacity_unchecked c : simq m empty_storage (fun _ => same_storage) same_storage
  (h_with_capacity_unchecked c) (with_capacity_unchecked c).
Proof.
  unfold h_with_capacity_unchecked, with_capacity_unchecked.
  do 4 (apply simq_bind with (Mid := fun _ => empty_storage); [apply sim_empty_same; sims|intros _]).
  apply simq_bind with (Mid := answered c); [apply sim_alloc|]. intros p.
  intros s L t HR. cbn. split; [reflexivity|]. unfold answered, same_storage in *. cbn. intuition (try congruence).
Qed.

Lemma sim_with_capacity c : simq m empty_storage (fun _ => same_storage) same_storage (h_with_capacity c) (with_capacity c).
Proof.
  unfold h_with_capacity, with_capacity.
  apply simq_bind with (Mid := fun _ => empty_storage); [apply sim_empty_same; sims|intros _].
  destruct (c =? 0).
  - eapply simq_weaken; [| | |apply sim_empty_same; sims]; auto. intros _ s L t [H _]. exact H.
  - do 2 (apply simq_bind with (Mid := fun _ => empty_storage); [apply sim_empty_same; sims|intros ?]).
    apply sim_with_capacity_unchecked.
Qed.

Lemma sim_set_pos n : sim (h_set_pos n) (set_pos n).
Proof. unfold h_set_pos, set_pos. apply sim_bind; [apply sim_cap|intros cap]. sims. apply sim_put_pos. Qed.

Lemma sim_write_slice pos l len src :
  sim (h_write_slice pos l len src) (write_slice pos l len (src_data m src)).
Proof.
  unfold h_write_slice, write_slice. apply sim_bind; [apply sim_cap|intros cap]. sims.
  intros s L t HR. pose proof HR as (E1 & E2 & E3 & E4 & E5 & E6 & E7 & E8). rewrite E1, E2.
  destruct (_ <=? _) eqn:Hb; cbn [andb]; [|exact Logic.I]. destruct (_ =? 0); [|exact Logic.I].
  assert (Hin : in_block L (s_ptr (sw_s t) + pos) (l_size l * len) = true).
  { unfold in_block. destruct (N.eqb_spec (l_size l * len) 0) as [Z|Z]; [reflexivity|]. cbn [orb].
    destruct (E8 ltac:(lia)) as [B1 _]. rewrite B1, E7. lia. }
  assert (Hbuf : forall d i, blit (lc_buf L) (s_ptr (sw_s t) + pos - lc_base L) (l_size l * len) d i
    = blit (s_buf (sw_s t)) pos (l_size l * len) d i).
  { intros d i. unfold blit. destruct (N.eq_dec (l_size l * len) 0) as [Z|Z].
    - rewrite Z, E4. replace ((_ <=? i) && (i <? _)) with false by lia. replace ((_ <=? i) && (i <? _)) with false by lia. reflexivity.
    - destruct (E8 ltac:(lia)) as [B1 _]. rewrite B1, E4. replace (s_ptr (sw_s t) + pos - s_ptr (sw_s t)) with pos by lia. reflexivity. }
  destruct src as [sa|sd]; cbn [iput alone src_data]; rewrite Hin; cbn; split; auto;
    unfold same_storage; cbn; intuition.
Qed.
Lemma sim_write pos l src : sim (h_write pos l src) (write pos l (src_data m src)).
Proof. apply sim_write_slice. Qed.

Lemma sim_push_slice_unchecked l len src size :
  sim (h_push_slice_unchecked l len src size) (push_slice_unchecked l len (src_data m src) size).
Proof.
  unfold h_push_slice_unchecked, push_slice_unchecked.
  do 3 (apply sim_bind; [sims; try apply sim_pos; try apply sim_cap|intros _]).
  apply sim_if; [apply sim_ret|]. apply sim_bind; [apply sim_pos|intros pos]. apply sim_bind; [apply sim_write_slice|intros _].
  apply sim_bind; [apply sim_pos|intros pos']. apply sim_bind; [sims|intros np]. apply sim_put_pos.
Qed.

Lemma sim_grow n : sim (h_grow_for_reserve n) (grow_for_reserve n).
Proof.
  unfold h_grow_for_reserve, grow_for_reserve.
  apply sim_bind; [sims|intros _]. apply sim_bind; [apply sim_pos|intros pos].
  do 3 (apply sim_bind; [sims|intros ?]).
  intros s L t HR. unfold hbind at 1. unfold bind at 1. cbn [hcap pu gets get_cap pthen].
  pose proof HR as (E1 & E2 & _). rewrite E2. destruct (_ =? 0) eqn:Hc.
  - refine (simq_bind m empty_storage _ _ _ _ _ _ _ (sim_alloc _) (sim_put _) s L t _). split; [exact HR|lia].
  - exact (simq_bind m same_storage _ _ _ _ _ _ _ (sim_realloc _) (sim_put _) s L t HR).
Qed.

Lemma sim_reserve n : sim (h_reserve n) (reserve n).
Proof.
  unfold h_reserve, reserve. apply sim_bind; [apply sim_cap|intros cap]. apply sim_bind; [apply sim_pos|intros pos].
  cbv zeta. apply sim_if; [apply sim_grow|apply sim_ret].
Qed.

Lemma sim_align a : sim (h_align a) (align a).
Proof.
  unfold h_align, align. do 3 (apply sim_bind; [sims|intros _]). apply sim_bind; [apply sim_pos|intros pos].
  apply sim_bind; [sims|intros np]. apply sim_set_pos.
Qed.
Lemma sim_align_for l : sim (h_align_for l) (align_for l).
Proof. unfold h_align_for, align_for. apply sim_if; [apply sim_align|apply sim_ret]. Qed.
Lemma sim_align_after_any : sim h_align_after_any align_after_any.
Proof. apply sim_align. Qed.
Lemma sim_align_after l : sim (h_align_after l) (align_after l).
Proof. unfold h_align_after, align_after. apply sim_if; [apply sim_align_after_any|apply sim_ret]. Qed.

Lemma sim_push_slice l len src : sim (h_push_slice l len src) (push_slice l len (src_data m src)).
Proof.
  unfold h_push_slice, push_slice. apply sim_if; [apply sim_ret|].
  apply sim_bind; [apply sim_align_for|intros _]. apply sim_bind; [sims|intros size].
  apply sim_bind; [apply sim_reserve|intros _]. apply sim_bind; [apply sim_pos|intros pos].
  apply sim_bind; [apply sim_push_slice_unchecked|intros _]. apply sim_bind; [apply sim_align_after|intros _]. sims.
Qed.
Lemma sim_push l src : sim (h_push l src) (push l (src_data m src)).
Proof. apply sim_push_slice. Qed.
Lemma sim_push_bytes len src : sim (h_push_bytes len src) (push_bytes len (src_data m src)).
Proof. apply sim_push_slice. Qed.
Lemma sim_push_empty_slice l len : sim (h_push_empty_slice l len) (push_empty_slice l len).
Proof.
  unfold h_push_empty_slice, push_empty_slice.
  apply sim_bind; [apply sim_align_for|intros _]. apply sim_bind; [sims|intros size].
  apply sim_bind; [apply sim_reserve|intros _]. apply sim_bind; [apply sim_pos|intros pos].
  apply sim_bind; [sims|intros np]. apply sim_bind; [apply sim_set_pos|intros _].
  apply sim_bind; [apply sim_align_after|intros _]. sims.
Qed.

Lemma sim_shrink : sim h_shrink_to_fit shrink_to_fit.
Proof.
  unfold h_shrink_to_fit, shrink_to_fit. apply sim_bind; [apply sim_pos|intros pos].
  apply sim_bind; [sims|intros nc]. apply sim_bind; [apply sim_cap|intros cap].
  apply sim_if; [|apply sim_ret].
  apply simq_bind with (Mid := fun p h L w => (h_cap h = s_cap (sw_s w) /\ h_pos h = s_pos (sw_s w) /\
    (forall i, lc_buf L i = s_buf (sw_s w) i) /\ lc_calls L = sw_calls w /\ lc_trace L = sw_trace w /\
    lc_size L = nc /\ (0 < nc -> lc_base L = p /\ lc_al L = SA))).
  - destruct (N.eqb_spec nc 0) as [->|Hn].
    + apply simq_bind with (Mid := fun _ h L w => answered 0 (lc_base L) h L w); [apply sim_dealloc|].
      intros _ s L t HR. cbn. split; [reflexivity|]. unfold answered in HR. intuition lia.
    + eapply simq_weaken; [| | |apply (sim_realloc nc)]; auto. unfold answered. intuition.
  - intros p s L t HR. cbn. split; [reflexivity|]. unfold same_storage. cbn. intuition.
Qed.

Lemma sim_op o : sim (h_run_op o) (run_op (op_of m o)).
Proof.
  destruct o; cbn [h_run_op op_of run_op]; unfold some_pos, no_pos;
    (apply sim_bind; [|intros ?; apply sim_ret]).
  - apply sim_push. - apply sim_push_slice. - apply sim_push_bytes. - apply sim_push_empty_slice. - apply sim_push_empty_slice.
  - apply sim_reserve. - apply sim_align_for. - apply sim_align_after. - apply sim_align_after_any.
  - apply sim_set_pos. - apply sim_shrink.
Qed.

End Vec.
End Alone.
