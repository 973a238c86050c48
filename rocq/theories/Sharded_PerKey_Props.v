(** Property C109 of xmap.Sharded: seen one key at a time, every call is atomic. *)
From Verif Require Import Base GoMap XMap_Spec Sharded_Model Sharded_Spec Sharded_Exec Sharded_Props
  Sharded_Keys_Spec Sharded_PerKey_Spec Sharded_PerKey_Proofs.

(** Any number of goroutines make any calls other than Clear, IterateShards with
    callbacks that go through the entries.  Whatever the key [x], each call, also
    IterateShards and the calls that look at the whole map, takes effect on the
    entry of [x] at one instant between its call and its return, and answers
    accordingly.  Without Clear there is no data race (C37), so that interleaving
    is all there is. *)
Theorem C109_per_key {K V} (eqb : K -> K -> bool) (zero : V) (nsh : nat) (hash : K -> Z) (x : K)
  (allow : nat -> op K V -> Prop) tr c :
  partial_equiv eqb -> hashRespects eqb hash -> (0 < nsh)%nat -> eqb x x = true ->
  (forall t o, allow t o -> sweeps eqb o /\ o <> OClear) ->
  reach eqb zero nsh hash allow tr c -> atomicAt eqb zero x tr.
Proof.
  intros PE HC Hn Rx HA R. destruct (sim_reach eqb zero nsh hash x PE HC Hn Rx allow tr c) as (v & ph & L & _); [|exact R|].
  - intros t o A. apply (HA t o A).
  - now exists v, ph.
Qed.

(** The same with Clear.  Clear writes under the read lock and so races with the
    readers (C37); this theorem is about the executions in which each access to a
    shard's map pointer is atomic and seen by all, which Go does not promise for
    racing accesses. *)
Theorem C109_clear {K V} (eqb : K -> K -> bool) (zero : V) (nsh : nat) (hash : K -> Z) (x : K)
  (allow : nat -> op K V -> Prop) tr c :
  partial_equiv eqb -> hashRespects eqb hash -> (0 < nsh)%nat -> eqb x x = true ->
  (forall t o, allow t o -> sweeps eqb o) ->
  reach eqb zero nsh hash allow tr c -> atomicAt eqb zero x tr.
Proof.
  intros PE HC Hn Rx HA R. destruct (sim_reach eqb zero nsh hash x PE HC Hn Rx allow tr c) as (v & ph & L & _); [assumption|exact R|].
  now exists v, ph.
Qed.

(** The entry of the key is what the shard holds, so that a later lookup by
    anybody starts from the explanation's entry. *)
Theorem C109_entry {K V} (eqb : K -> K -> bool) (zero : V) (nsh : nat) (hash : K -> Z) (x : K)
  (allow : nat -> op K V -> Prop) tr c :
  partial_equiv eqb -> hashRespects eqb hash -> (0 < nsh)%nat -> eqb x x = true ->
  (forall t o, allow t o -> sweeps eqb o) ->
  reach eqb zero nsh hash allow tr c ->
  exists p, explained eqb zero x tr (gget eqb (items (shm c) (GetShard nsh hash x)) x) p /\
    forall t, (thr c t = Idle <-> p t = KIdle).
Proof.
  intros PE HC Hn Rx HA R.
  destruct (sim_reach eqb zero nsh hash x PE HC Hn Rx allow tr c) as (v & ph & L & -> & _ & I); [assumption|exact R|].
  exists ph. split; [exact L|]. intros t. specialize (I t). destruct (thr c t) as [|o p]; [tauto|].
  destruct I as [[->|[c0 ->]] _]; split; discriminate.
Qed.

(** Two entries; goroutine 0 deletes the values above 5 everywhere while goroutine
    1 looks both keys up after shard 0 is done.  Each key is explained, the two
    together are not: IterateShards is not atomic on the whole map. *)
Definition big (m : gomap Z Z) : gomap Z Z := entrywise (fun _ v => if v >? 5 then None else Some (v + 1)) m.
Definition ex109 : list (action Z Z) :=
  Inv 1 (OSet 0 7) :: go 1 5 ++ Inv 1 (OSet 1 8) :: go 1 5 ++ Inv 0 (OIterateShards big) :: go 0 5 ++
  Inv 1 (OTryGet 0) :: go 1 4 ++ Inv 1 (OTryGet 1) :: go 1 4 ++ Inv 1 (OSet 0 2) :: go 1 5 ++ go 0 6 ++
  Inv 1 OEntries :: go 1 7.
Example C109_case :
  ex_reach (fun _ o => sweeps Z.eqb o /\ o <> OClear) (ex_events ex109) (ex_final ex109) /\
  returns (ex_events ex109) =
    [(OSet 0 7, RUnit); (OSet 1 8, RUnit); (OTryGet 0, ROpt 0 false); (OTryGet 1, ROpt 8 true);
     (OSet 0 2, RUnit); (OIterateShards big, RUnit); (OEntries, REntries [(0, 2)])].
Proof.
  split; [|reflexivity]. apply run_reach.
  assert (sweeps Z.eqb (OIterateShards big)).
  { exists (fun _ v => if v >? 5 then None else Some (v + 1)). split; [intros k k' v _; reflexivity|reflexivity]. }
  allowed; (split; [try exact I; assumption|discriminate]).
Qed.

(** With Clear. *)
Definition ex109b : list (action Z Z) :=
  Inv 1 (OSet 0 7) :: go 1 5 ++ Inv 1 (OSet 1 8) :: go 1 5 ++ Inv 0 OClear :: go 0 3 ++
  Inv 1 (OTryGet 0) :: go 1 4 ++ Inv 1 (OTryGet 1) :: go 1 4 ++ go 0 4 ++ Inv 1 OLen :: go 1 7.
Example C109_clear_case :
  ex_reach (fun _ o => sweeps Z.eqb o) (ex_events ex109b) (ex_final ex109b) /\
  returns (ex_events ex109b) =
    [(OSet 0 7, RUnit); (OSet 1 8, RUnit); (OTryGet 0, ROpt 0 false); (OTryGet 1, ROpt 8 true);
     (OClear, RUnit); (OLen, RInt 0)].
Proof. split; [|reflexivity]. apply run_reach. allowed. Qed.

(** The specification can fail: traces no history of the key 4 explains. *)
Example C109_not_atomic : forall r, r <> ROpt 0 false ->
  ~ atomicAt Z.eqb 0 4 [EInv 0%nat (OTryGet 4); ERet 0%nat (OTryGet 4) r].
Proof.
  intros r Hr (c & p & L).
  assert (G : forall tr c p, explained Z.eqb 0 4 tr c p ->
    (forall t o, In (EInv t o) tr -> o = OTryGet 4) ->
    c = None /\ (forall t o, p t = KPending o -> o = OTryGet 4) /\
    (forall t o c, p t = KDone o c -> o = OTryGet 4 /\ c = None) /\
    (forall t o r, In (ERet t o r) tr -> r = ROpt 0 false)).
  { clear. induction 1 as [|tr c p t o L IH Pt|tr c p t o L IH Pt|tr c p t o c0 r L IH Pt A|tr c p t o L IH]; intros H.
    - repeat split; try discriminate. intros t o r [].
    - destruct IH as (I0 & I1 & I2 & I3); [intros; apply (H t0); apply in_or_app; auto|].
      split; [assumption|]. split; [|split].
      + intros t' o'. destruct (Sharded_Locks.fupd_case p t t' (KPending o)) as [[<- ->]|[_ ->]]; [|apply I1].
        intros [= <-]. apply (H t). apply in_or_app. right. now left.
      + intros t' o' c'. destruct (Sharded_Locks.fupd_case p t t' (KPending o)) as [[<- ->]|[_ ->]]; [discriminate|apply I2].
      + intros t' o' r' Hi. apply in_app_iff in Hi as [Hi|[Hi|[]]]; [|discriminate]. eapply I3; eassumption.
    - destruct (IH H) as (I0 & I1 & I2 & I3). pose proof (I1 _ _ Pt). subst o c.
      split; [reflexivity|]. split; [|split]; [| |assumption].
      + intros t' o'. destruct (Sharded_Locks.fupd_case p t t' (KDone (OTryGet 4) None)) as [[<- ->]|[_ ->]]; [discriminate|apply I1].
      + intros t' o' c'. destruct (Sharded_Locks.fupd_case p t t' (KDone (OTryGet 4) None)) as [[<- ->]|[_ ->]]; [|apply I2].
        intros [= <- <-]. auto.
    - destruct IH as (I0 & I1 & I2 & I3); [intros; apply (H t0); apply in_or_app; auto|].
      split; [assumption|]. split; [|split].
      + intros t' o'. destruct (Sharded_Locks.fupd_case p t t' KIdle) as [[<- ->]|[_ ->]]; [discriminate|apply I1].
      + intros t' o' c'. destruct (Sharded_Locks.fupd_case p t t' KIdle) as [[<- ->]|[_ ->]]; [discriminate|apply I2].
      + intros t' o' r' Hi. apply in_app_iff in Hi as [Hi|[Hi|[]]]; [eapply I3; eassumption|].
        injection Hi as <- <- <-. destruct (I2 _ _ _ Pt) as [-> ->]. now apply A.
    - destruct IH as (I0 & I1 & I2 & I3); [intros; apply (H t0); apply in_or_app; auto|].
      repeat split; auto; try (eapply I2; eassumption).
      intros t' o' r' Hi. apply in_app_iff in Hi as [Hi|[Hi|[]]]; [|discriminate]. eapply I3; eassumption. }
  destruct (G _ _ _ L) as (_ & _ & _ & H).
  - intros t o Hi. cbn in Hi. destruct Hi as [[= <- <-]|[Hi|[]]]; [reflexivity|discriminate].
  - apply Hr. apply (H 0%nat (OTryGet 4)). right. now left.
Qed.

Print Assumptions C109_per_key.
Print Assumptions C109_clear.
Print Assumptions C109_entry.
