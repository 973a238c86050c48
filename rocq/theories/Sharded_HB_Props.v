(** * C129: the locks of xmap.Sharded order what goroutines do *)
From Coq Require Import Lia Permutation.
From Verif Require Import Base GoMap Lin HB HB_Proofs HB_Locks Sharded_Model Sharded_Locks Sharded_HB_Model Sharded_HB_Spec Sharded_HB_Proofs.
Local Open Scope list_scope.
Local Open Scope nat_scope.

(** The executions are those of Sharded_Model. *)
Theorem C129_same_executions {K V} (eqb : K -> K -> bool) (zero : V) nsh hash allow :
  (forall tr c, detailed eqb zero nsh hash allow tr c ->
    exists ev, callsReturns ev = events tr /\ reach eqb zero nsh hash allow ev c) /\
  (forall ev c, reach eqb zero nsh hash allow ev c ->
    exists tr, events tr = callsReturns ev /\ detailed eqb zero nsh hash allow tr c).
Proof. split; [apply detailed_reach|apply reach_detailed]. Qed.
Print Assumptions C129_same_executions.

(** As long as nobody calls Clear, any two accesses of a shard's map, one of
    them a write, are ordered by happens-before. *)
Theorem C129_sharded_race_free {K V} (eqb : K -> K -> bool) (zero : V) nsh hash (allow : nat -> op K V -> Prop) tr c :
  (forall t o, allow t o -> o <> OClear) -> detailed eqb zero nsh hash allow tr c -> raceFree tr.
Proof.
  intros HA D. apply ordered_raceFree. eapply disciplined_inv, detailed_disciplined; [|exact D].
  intros t o A H. apply (HA t o A). now destruct o.
Qed.
Print Assumptions C129_sharded_race_free.

(** What a result shows of an entry was put there by a call that happened
    before, from its beginning on, the return. *)
Theorem C129_sharded_publishes {K V} (eqb : K -> K -> bool) (zero : V) nsh hash (allow : nat -> op K V -> Prop) tr c n t o r cl :
  (forall t o, allow t o -> o <> OClear) -> detailed eqb zero nsh hash allow tr c ->
  does tr n t (AReturn o r) -> shows o r cl ->
  exists k v i u o', fits eqb cl k v /\ does tr i u (ACall o') /\ puts o' k v /\ hb tr i n.
Proof.
  intros HA D. apply (s_return eqb tr c). apply (inv_ok eqb zero nsh hash allow); [|exact D].
  intros t' o' A H. apply (HA t' o' A). now destruct o'.
Qed.
Print Assumptions C129_sharded_publishes.

(** With Clear there is an execution with a race that happens-before does not
    order: Clear writes under the read lock while TryGet reads. *)
Definition clearRace : doings (op Z Z) (res Z Z) :=
  [(1, ACall OClear); (2, ACall (OTryGet 5%Z)); (1, ALock false 0); (2, ALock false 0); (1, APlain true 0); (2, APlain false 0)].

Lemma no_sync_no_hb {Op R} (tr : doings Op R) : (forall i t x y, ~ does tr i t (AAtomic x y)) -> (forall i t x s, ~ does tr i t (AUnlock x s)) ->
  forall i j, hb tr i j -> exists t a b, does tr i t a /\ does tr j t b.
Proof.
  intros N1 N2 i j H. induction H as [i j t a b L D1 D2|i j L [[(t & b & D) _]|(s & x & y & t & u & D & _)]|i j k _ IH1 _ IH2].
  - eauto.
  - now apply N1 in D.
  - now apply N2 in D.
  - destruct IH1 as (t & a & b & H1 & H2), IH2 as (u & a' & b' & H3 & H4). exists t, a, b'. split; [exact H1|].
    unfold does in *. rewrite H2 in H3. injection H3 as <- _. exact H4.
Qed.

Theorem C129_clear_races : exists tr c, detailed Z.eqb 0%Z 1 (fun x => x) (fun _ _ => True) tr c /\ ~ raceFree tr.
Proof.
  pose proof (d_nil Z.eqb 0%Z 1 (fun x => x) (fun _ _ => True)) as D.
  eapply (d_inv _ _ _ _ _ _ _ 1 OClear) in D; [|reflexivity|exact I].
  eapply (d_inv _ _ _ _ _ _ _ 2 (OTryGet 5%Z)) in D; [|reflexivity|exact I].
  eapply (d_tau _ _ _ _ _ _ _ 1) in D; [|reflexivity|constructor; reflexivity].
  eapply (d_tau _ _ _ _ _ _ _ 2) in D; [|reflexivity|constructor; reflexivity].
  eapply (d_tau _ _ _ _ _ _ _ 1) in D; [|reflexivity|constructor].
  eapply (d_tau _ _ _ _ _ _ _ 2) in D; [|reflexivity|constructor].
  exists clearRace. eexists. split; [exact D|]. clear D. intros H.
  assert (N : forall i j, hb clearRace i j -> exists t a b, does clearRace i t a /\ does clearRace j t b).
  { apply no_sync_no_hb; intros i t x y Di; do 7 (destruct i as [|i]; try discriminate). }
  destruct (H 4 5) as [Q|Q]; [exists 1, 2, true, false, 0; split; [reflexivity|split; [reflexivity|now left]]|lia| |];
    apply N in Q; destruct Q as (t & a & b & Q1 & Q2); unfold does in *; cbn in *; congruence.
Qed.
Print Assumptions C129_clear_races.

(** Goroutine 1 sets 5 to 7 and goroutine 2 finds it. *)
Definition setGet : doings (op Z Z) (res Z Z) :=
  [(1, ACall (OSet 5%Z 7%Z)); (1, AElse); (1, ALock true 0); (2, ACall (OTryGet 5%Z)); (1, APlain true 0); (1, AUnlock true 0);
   (2, ALock false 0); (2, APlain false 0); (2, AUnlock false 0); (2, AReturn (OTryGet 5%Z) (ROpt 7%Z true))].
Example C129_execution : exists c, detailed Z.eqb 0%Z 1 (fun x => x) (fun _ o => o <> OClear) setGet c.
Proof.
  pose proof (d_nil Z.eqb 0%Z 1 (fun x => x) (fun _ o => o <> OClear)) as D.
  eapply (d_inv _ _ _ _ _ _ _ 1 (OSet 5%Z 7%Z)) in D; [|reflexivity|discriminate].
  eapply (d_tau _ _ _ _ _ _ _ 1) in D; [|reflexivity|constructor; reflexivity].
  eapply (d_tau _ _ _ _ _ _ _ 1) in D; [|reflexivity|constructor; reflexivity].
  eapply (d_inv _ _ _ _ _ _ _ 2 (OTryGet 5%Z)) in D; [|reflexivity|discriminate].
  eapply (d_tau _ _ _ _ _ _ _ 1) in D; [|reflexivity|constructor; reflexivity].
  eapply (d_tau _ _ _ _ _ _ _ 1) in D; [|reflexivity|constructor; reflexivity].
  eapply (d_tau _ _ _ _ _ _ _ 2) in D; [|reflexivity|constructor; reflexivity].
  eapply (d_tau _ _ _ _ _ _ _ 2) in D; [|reflexivity|constructor; reflexivity].
  eapply (d_tau _ _ _ _ _ _ _ 2) in D; [|reflexivity|constructor; cbn; auto].
  eapply (d_ret _ _ _ _ _ _ _ 2) in D; [|reflexivity].
  eexists. exact D.
Qed.
Example C129_shows : shows (OTryGet 5%Z) (ROpt 7%Z true) (ValueOf 5%Z 7%Z).
Proof. reflexivity. Qed.
