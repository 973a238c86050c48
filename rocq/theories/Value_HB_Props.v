(** * C128: atomic.Value and atomic.Ptr publish *)
From Coq Require Import Lia.
From Verif Require Import Base Lin HB HB_Proofs Value_Model Value_HB_Model Value_HB_Spec Value_HB_Proofs.
Local Open Scope list_scope.
Local Open Scope nat_scope.

(** The executions are those of Value_Model. *)
Theorem C128_same_executions {T} (zero : T) eqb m :
  (forall tr c, detailed zero eqb m tr c -> execution zero eqb m (events tr) c) /\
  (forall ev c, execution zero eqb m ev c -> exists tr, events tr = ev /\ detailed zero eqb m tr c).
Proof.
  split.
  - induction 1 as [|tr c t o D IH H|tr c t o k a k' m' D IH H A I|tr c t o k r D IH H O]; [constructor| | |];
      rewrite events_app; eapply runs_snoc; eauto; [now apply st_inv| |eapply st_ret; eauto].
    replace (events [(t, a)]) with (@nil (event (op T) (res T))) by (destruct k; cbn in A; now inversion A).
    eapply st_run; eauto.
  - induction 1 as [|ev c e c' D (tr & <- & IH) S]; [exists []; split; [reflexivity|constructor]|].
    destruct S as [c t o H|c t o k k' sh' H I|c t o k r H O].
    + exists (tr ++ [(t, ACall o)]). split; [now rewrite events_app|now constructor].
    + destruct (access k (shared c)) as [a|] eqn:A; [|inversion I; subst; discriminate].
      exists (tr ++ [(t, a)]). split; [|econstructor; eauto]. rewrite events_app. f_equal. destruct k; cbn in A; now inversion A.
    + exists (tr ++ [(t, AReturn o r)]). split; [now rewrite events_app|econstructor; eauto].
Qed.
Print Assumptions C128_same_executions.

(** The plain accesses inside the methods do not race: the cell that a Store,
    Swap or CompareAndSwap makes is written before anybody reads it. *)
Theorem C128_value_race_free {T} (zero x : T) eqb m tr c : m = zeroValue \/ m = newValue x ->
  detailed zero eqb m tr c -> raceFree tr.
Proof.
  intros Hm D i j (t & u & b & b' & l & D1 & D2 & W) N.
  assert (I : exists v0, Inv zero eqb m v0 tr c).
  { destruct Hm as [->| ->]; [exists zero|exists x]; apply inv_detailed; auto. }
  destruct I as [v0 I]. destruct b.
  - left. exact (proj2 (v_order _ _ _ _ _ _ I _ _ _ _ _ _ D1 D2 N)).
  - destruct W as [W| ->]; [discriminate|]. right.
    exact (proj2 (v_order _ _ _ _ _ _ I _ _ _ _ _ _ D2 D1 (not_eq_sym N))).
Qed.
Print Assumptions C128_value_race_free.

(** A Load or Swap that returned [v], and a CompareAndSwap that found [v] to be
    == old: unless [v] is the value the Value started with, a call that brought
    [v] happened before, from its beginning on, the return of this one. *)
Theorem C128_value_publishes {T} (zero x : T) eqb m v0 tr c n t o r :
  m = zeroValue /\ v0 = zero \/ m = newValue x /\ v0 = x ->
  detailed zero eqb m tr c -> does tr n t (AReturn o r) -> tells o r ->
  exists v, saw eqb o r v /\
    (v = v0 \/ exists i u o', does tr i u (ACall o') /\ brings o' v /\ hb tr i n).
Proof.
  intros Hm D H W. assert (I : Inv zero eqb m v0 tr c).
  { apply inv_detailed; [|exact D]. destruct Hm as [H2|[-> ->]]; [now left|now right]. }
  exact (v_return _ _ _ _ _ _ I n t o r H W).
Qed.
Print Assumptions C128_value_publishes.

(** Goroutine 1 stores 7, goroutine 2 loads it: its call of Store happens before
    the return of Load. *)
Definition C128_doings : doings (op Z) (res Z) :=
  [(2, ACall Load); (1, ACall (Store 7%Z)); (1, APlain true 0); (1, AAtomic false true); (2, AAtomic true false);
   (2, APlain false 0); (2, AReturn Load (RVal 7%Z))].
Example C128_execution : exists c, detailed 0%Z Z.eqb zeroValue C128_doings c.
Proof.
  pose proof (d_nil 0%Z Z.eqb zeroValue) as D.
  apply (d_call _ _ _ _ _ 2 Load) in D; [|reflexivity].
  apply (d_call _ _ _ _ _ 1 (Store 7%Z)) in D; [|reflexivity].
  eapply (d_instr _ _ _ _ _ 1) in D; [|reflexivity|reflexivity|apply i_new].
  eapply (d_instr _ _ _ _ _ 1) in D; [|reflexivity|reflexivity|apply i_store].
  eapply (d_instr _ _ _ _ _ 2) in D; [|reflexivity|reflexivity|apply i_load].
  eapply (d_instr _ _ _ _ _ 2) in D; [|reflexivity|reflexivity|apply i_deref; reflexivity].
  eapply (d_return _ _ _ _ _ 2) in D; [|reflexivity|reflexivity].
  eexists. exact D.
Qed.
Example C128_ordered : hb C128_doings 1 6.
Proof.
  apply hb_trans with 3; [apply (hb_program _ 1 3 1 (ACall (Store 7%Z)) (AAtomic false true)); [lia|reflexivity|reflexivity]|].
  apply hb_trans with 4; [|apply (hb_program _ 4 6 2 (AAtomic true false) (AReturn Load (RVal 7%Z))); [lia|reflexivity|reflexivity]].
  apply hb_sync; [lia|left]. split; [exists 1, false; reflexivity|]. split; [exists 2, false; reflexivity|]. intros m t b L. lia.
Qed.
(** A trace with a race is not race free. *)
Example C128_race : ~ raceFree (Op := op Z) (R := res Z) [(1, APlain true 0); (2, APlain false 0)].
Proof.
  assert (N : forall i j, ~ hb (Op := op Z) (R := res Z) [(1, APlain true 0); (2, APlain false 0)] i j).
  { intros i j H. induction H as [i j t a b L D1 D2|i j L [[(t & b & D) _]|(s & x & y & t & u & D & _)]|];
      [|do 3 (destruct i as [|i]; try discriminate)..|assumption].
    pose proof (does_lt _ _ _ _ D2). cbn in H. assert (i = 0 /\ j = 1) as [-> ->] by lia.
    unfold does in *. cbn in *. congruence. }
  intros H. destruct (H 0 1) as [Q|Q]; [|lia|exact (N _ _ Q)|exact (N _ _ Q)].
  exists 1, 2, true, false, 0. split; [reflexivity|split; [reflexivity|now left]].
Qed.
