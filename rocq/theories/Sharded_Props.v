(** Properties C34-C39 of xmap.Sharded. *)
From Coq Require Import Permutation.
From Verif Require Import Base GoMap XMap_Spec Sharded_Model Sharded_Spec Sharded_Locks Sharded_Lin
  Sharded_Seq Sharded_Factory Sharded_Len Sharded_Exec.

(** A small map for the examples: two shards, keys go to shard [key mod 2]. *)
Notation ex_reach := (reach Z.eqb 0 2 (fun k : Z => k)).
Notation ex_events := (events Z.eqb 0 2 (fun k : Z => k)).
Notation ex_final := (final Z.eqb 0 2 (fun k : Z => k)).
Definition go (t n : nat) : list (action Z Z) := repeat (Go t) n.
Ltac allowed := intros t o Hi; cbn in Hi;
  repeat (destruct Hi as [Hi|Hi]; [try discriminate Hi; injection Hi; intros; subst; cbn|]); try contradiction;
  try tauto.

(** ** C34: used by one goroutine, Sharded answers as one map *)
Theorem C34_new_panics {K V} (shards : Z) :
  (exists msg, NewShardedCustom (K := K) (V := V) shards = Panic msg) <-> shards <= 0.
Proof.
  unfold NewShardedCustom. destruct (Z.leb_spec shards 0).
  - split; [auto|]. intros _. now eexists.
  - split; [intros [? ?]; discriminate|lia].
Qed.

(** The results of all the calls that returned are those of one map, [answer]
    being the specification.  Compatibility of the hash with == is automatic:
    == is equality here (no NaN) and the hash is a function. *)
Theorem C34_sequential {K V} (eqb : K -> K -> bool) (zero : V) (nsh : nat) (hash : K -> Z) tr c :
  decides eqb -> (0 < nsh)%nat ->
  reach eqb zero nsh hash (fun t o => t = 0%nat /\ forall fn, o <> OIterateShards fn) tr c ->
  hist (answer eqb zero) [] (map fst (returns tr)) (map snd (returns tr)).
Proof.
  intros D Hn R. eapply (seq_reach eqb zero nsh hash D Hn tr c).
  revert R. generalize c tr. clear. induction 1 as [|tr c ev c' R IH S]; [constructor|].
  eapply reach_step; [exact IH|]. destruct S; econstructor; eauto.
  match goal with H : _ /\ _ |- _ => destruct H as [-> H'] end. split; [reflexivity|].
  destruct o; cbn; auto. now eapply H'.
Qed.

(** ... and every call made while no other is running returns. *)
Theorem C34_total {K V} (eqb : K -> K -> bool) (zero : V) (nsh : nat) (hash : K -> Z)
  (allow : nat -> op K V -> Prop) tr c t o p :
  reach eqb zero nsh hash allow tr c -> thr c t = Running o p -> (forall t', t' <> t -> thr c t' = Idle) ->
  exists tr' c' r, reach eqb zero nsh hash allow (tr ++ tr' ++ [ERet t o r]) c' /\ thr c' t = Idle.
Proof. apply alone_returns. Qed.

Definition ex34 : list (action Z Z) :=
  Inv 0 (OSet 4 7) :: go 0 5 ++ Inv 0 (OTrySet 5 8) :: go 0 6 ++ Inv 0 OLen :: go 0 7 ++
  Inv 0 (ODelete 4) :: go 0 5 ++ Inv 0 (OTryGet 4) :: go 0 4 ++ Inv 0 OEntries :: go 0 7.
Example C34_case :
  ex_reach (fun t o => t = 0%nat /\ forall fn, o <> OIterateShards fn) (ex_events ex34) (ex_final ex34) /\
  returns (ex_events ex34) =
    [(OSet 4 7, RUnit); (OTrySet 5 8, RBool true); (OLen, RInt 2); (ODelete 4, RUnit);
     (OTryGet 4, ROpt 0 false); (OEntries, REntries [(5, 8)])].
Proof.
  split; [|reflexivity]. apply run_reach. allowed; (split; [reflexivity|discriminate]).
Qed.

(** ** C35: single-key calls are linearizable, whatever runs beside them other
    than Clear and IterateShards *)
Theorem C35_linearizable {K V} (eqb : K -> K -> bool) (zero : V) (nsh : nat) (hash : K -> Z)
  (allow : nat -> op K V -> Prop) tr c :
  partial_equiv eqb -> (forall x y, eqb x y = true -> hash x = hash y) ->
  (forall t o, allow t o -> o <> OClear /\ forall fn, o <> OIterateShards fn) ->
  reach eqb zero nsh hash allow tr c -> linearizable eqb zero tr.
Proof.
  intros PE HC HA R. destruct (sim_reach eqb zero nsh hash PE HC allow tr c) as (h & ph & L & _); [|exact R|].
  - intros t o A. destruct (HA t o A) as [H1 H2]. destruct o; cbn; auto. now apply (H2 fn).
  - now exists h, ph.
Qed.

(** Two goroutines race to set key 4; the one called last is first in. *)
Definition ex35 : list (action Z Z) :=
  [Inv 0 (OTrySet 4 1); Inv 1 (OTrySet 4 2); Inv 2 (OGetOrSetFactory 4 (Some 3)); Go 2; Go 2; Go 2] ++
  go 1 6 ++ go 0 5 ++ go 2 5.
Example C35_case :
  ex_reach (fun _ _ => True) (ex_events ex35) (ex_final ex35) /\
  returns (ex_events ex35) =
    [(OTrySet 4 2, RBool true); (OTrySet 4 1, RBool false); (OGetOrSetFactory 4 (Some 3), ROpt 2 true)].
Proof. split; [|reflexivity]. apply run_reach. allowed. Qed.

(** The specification can fail: a trace no map explains. *)
Example C35_not_linearizable :
  ~ linearizable Z.eqb 0 [EInv 0%nat (OTryGet 4); ERet 0%nat (OTryGet 4) (ROpt 9 true)].
Proof.
  intros (h & p & L).
  assert (G : forall tr h p, linearized Z.eqb 0 tr h p ->
    (forall t o, In (EInv t o) tr -> o = OTryGet 4) ->
    value Z.eqb h 4 = None /\ (forall t o, p t = PPending o -> o = OTryGet 4) /\
    (forall t o r, p t = PDone o r -> r = ROpt 0 false) /\
    (forall t o r, In (ERet t o r) tr -> r = ROpt 0 false)).
  { clear. induction 1 as [|tr h p t o L IH Pt|tr h p t o r L IH Pt A|tr h p t o r L IH Pt|tr h p t o L IH]; intros H.
    - repeat split; try discriminate. intros t o r [].
    - destruct IH as (I0 & I1 & I2 & I3); [intros; apply (H t0); apply in_or_app; auto|].
      split; [assumption|]. split; [|split].
      + intros t' o'. destruct (fupd_case p t t' (PPending o)) as [[<- ->]|[_ ->]]; [|apply I1].
        intros [= <-]. apply (H t). apply in_or_app. right. now left.
      + intros t' o' r'. destruct (fupd_case p t t' (PPending o)) as [[<- ->]|[_ ->]]; [discriminate|apply I2].
      + intros t' o' r' Hi. apply in_app_iff in Hi as [Hi|[Hi|[]]]; [|discriminate]. eapply I3; eassumption.
    - destruct (IH H) as (I0 & I1 & I2 & I3). pose proof (I1 _ _ Pt). subst o. cbn in A. rewrite I0 in A.
      split; [assumption|]. split; [|split]; [| |assumption].
      + intros t' o'. destruct (fupd_case p t t' (PDone (OTryGet 4) r)) as [[<- ->]|[_ ->]]; [discriminate|apply I1].
      + intros t' o' r'. destruct (fupd_case p t t' (PDone (OTryGet 4) r)) as [[<- ->]|[_ ->]]; [|apply I2]. congruence.
    - destruct IH as (I0 & I1 & I2 & I3); [intros; apply (H t0); apply in_or_app; auto|].
      split; [assumption|]. split; [|split].
      + intros t' o'. destruct (fupd_case p t t' PIdle) as [[<- ->]|[_ ->]]; [discriminate|apply I1].
      + intros t' o' r'. destruct (fupd_case p t t' PIdle) as [[<- ->]|[_ ->]]; [discriminate|apply I2].
      + intros t' o' r' Hi. apply in_app_iff in Hi as [Hi|[Hi|[]]]; [eapply I3; eassumption|].
        injection Hi as <- <- <-. eapply I2; eassumption.
    - destruct IH as (I0 & I1 & I2 & I3); [intros; apply (H t0); apply in_or_app; auto|].
      repeat split; auto. intros t' o' r' Hi. apply in_app_iff in Hi as [Hi|[Hi|[]]]; [|discriminate]. eapply I3; eassumption. }
  destruct (G _ _ _ L) as (_ & _ & _ & H).
  - intros t o Hi. cbn in Hi. destruct Hi as [[= <- <-]|[Hi|[]]]; [reflexivity|discriminate].
  - discriminate (H 0%nat (OTryGet 4) (ROpt 9 true)). right. now left.
Qed.

(** ** C36: GetOrSetFactory *)

(** If nothing sets, deletes or clears [key] by other means, at most one factory
    for [key] runs to a value ... *)
Theorem C36_once {K V} (eqb : K -> K -> bool) (zero : V) (nsh : nat) (hash : K -> Z) (key : K)
  (allow : nat -> op K V -> Prop) tr c :
  partial_equiv eqb -> (forall x y, eqb x y = true -> hash x = hash y) ->
  (forall t o, allow t o -> ~ disturbs eqb key o) ->
  reach eqb zero nsh hash allow tr c -> (factoryRuns eqb key tr <= 1)%nat.
Proof. intros PE HC HA R. eapply once; eassumption. Qed.

(** ... all calls that return normally return the same value ... *)
Theorem C36_same_value {K V} (eqb : K -> K -> bool) (zero : V) (nsh : nat) (hash : K -> Z) (key : K)
  (allow : nat -> op K V -> Prop) tr c :
  partial_equiv eqb -> (forall x y, eqb x y = true -> hash x = hash y) ->
  (forall t o, allow t o -> ~ disturbs eqb key o) ->
  reach eqb zero nsh hash allow tr c ->
  forall t1 t2 k1 k2 f1 f2 v1 v2 b1 b2, eqb k1 key = true -> eqb k2 key = true ->
    In (ERet t1 (OGetOrSetFactory k1 f1) (ROpt v1 b1)) tr ->
    In (ERet t2 (OGetOrSetFactory k2 f2) (ROpt v2 b2)) tr -> v1 = v2.
Proof.
  intros PE HC HA R t1 t2 k1 k2 f1 f2 v1 v2 b1 b2 E1 E2 H1 H2.
  destruct (sim_reach eqb zero nsh hash PE HC allow tr c) as (h & ph & L & _); [|exact R|].
  { intros t o A. specialize (HA t o A). destruct o; cbn in *; auto. }
  destruct (lin_value eqb zero PE key tr h ph L) as (_ & _ & H).
  { intros t o Hi. eapply HA, invoked_allowed; eassumption. }
  assert (value eqb h key = Some v1) by (eapply H; [exact H1|]; split; [exact E1|eauto]).
  assert (value eqb h key = Some v2) by (eapply H; [exact H2|]; split; [exact E2|eauto]).
  congruence.
Qed.

(** ... and a factory runs only while its key is absent, whatever else runs
    (other than Clear and IterateShards): [h] explains the trace so far. *)
Theorem C36_only_absent {K V} (eqb : K -> K -> bool) (zero : V) (nsh : nat) (hash : K -> Z)
  (allow : nat -> op K V -> Prop) tr c c' t key f :
  partial_equiv eqb -> (forall x y, eqb x y = true -> hash x = hash y) -> eqb key key = true ->
  (forall t o, allow t o -> o <> OClear /\ forall fn, o <> OIterateShards fn) ->
  reach eqb zero nsh hash allow tr c ->
  cstep eqb zero nsh hash allow c [ECall t (OGetOrSetFactory key f)] c' ->
  gget eqb (items (shm c) (GetShard nsh hash key)) key = None /\
  exists h p, linearized eqb zero tr h p /\ value eqb h key = None.
Proof.
  intros PE HC Er HA R S.
  assert (A : gget eqb (items (shm c) (GetShard nsh hash key)) key = None).
  { eapply (only_absent eqb zero nsh hash PE HC key allow); [|exact R|exact S|now left|exact Er].
    intros t1 o1 A1 C. destruct (HA t1 o1 A1) as [N _]. destruct o1; cbn in C; tauto. }
  split; [assumption|].
  destruct (sim_reach eqb zero nsh hash PE HC allow tr c) as (h & ph & L & I & _); [|exact R|].
  { intros t1 o A1. destruct (HA t1 o A1) as [H1 H2]. destruct o; cbn; auto. now apply (H2 fn). }
  exists h, ph. split; [assumption|]. now rewrite I.
Qed.

Definition ex36 : list (action Z Z) :=
  [Inv 0 (OGetOrSetFactory 4 (Some 1)); Inv 1 (OGetOrSetFactory 4 (Some 2))] ++ go 0 3 ++ go 1 3 ++ go 1 7 ++ go 0 5.
Example C36_case :
  ex_reach (fun _ o => ~ disturbs Z.eqb 4 o) (ex_events ex36) (ex_final ex36) /\
  factoryRuns Z.eqb 4 (ex_events ex36) = 1%nat /\
  returns (ex_events ex36) =
    [(OGetOrSetFactory 4 (Some 2), ROpt 2 false); (OGetOrSetFactory 4 (Some 1), ROpt 2 true)].
Proof. split; [|split; reflexivity]. apply run_reach. allowed. Qed.

(** ** C37: no data race without Clear; Clear races *)
Theorem C37_no_race_partial {K V} (eqb : K -> K -> bool) (zero : V) (nsh : nat) (hash : K -> Z)
  (allow : nat -> op K V -> Prop) tr c : (forall t o, allow t o -> o <> OClear) ->
  reach eqb zero nsh hash allow tr c -> ~ race c.
Proof.
  intros HA R. apply no_race. eapply lockInv_reach; [right|exact R].
  intros t o A C. apply (HA t o A). destruct o; cbn in C; tauto.
Qed.

(** One goroutine clears while another reads: both are in the shard at once. *)
Definition ex37 : list (action Z Z) := [Inv 0 OClear; Inv 1 (OTryGet 0); Go 0; Go 1].
Theorem C37_clear_race_refuted : exists tr c,
  ex_reach (fun _ o => o = OClear \/ o = OTryGet 0) tr c /\ race c.
Proof.
  exists (ex_events ex37), (ex_final ex37). split.
  - apply run_reach. allowed.
  - exists 0%nat, 1%nat. cbn. do 6 eexists. repeat split; try reflexivity. discriminate.
Qed.

Example C37_case : let c := ex_final (firstn 9 ex35) in
  (exists o p, thr c 1%nat = Running o p /\ access p = Some (0%nat, true)) /\
  (exists o p, thr c 0%nat = Running o p) /\ (exists o p, thr c 2%nat = Running o p).
Proof. cbn. repeat split; do 2 eexists; try (split; reflexivity); reflexivity. Qed.

(** ** C38: no deadlock, whatever is called *)

(** While a call is running, some running call can take a step: the step taken
    is not a new call, as those are not allowed in it. *)
Theorem C38_no_deadlock {K V} (eqb : K -> K -> bool) (zero : V) (nsh : nat) (hash : K -> Z)
  (allow : nat -> op K V -> Prop) tr c : reach eqb zero nsh hash allow tr c ->
  (exists t o p, thr c t = Running o p) ->
  exists ev c', cstep eqb zero nsh hash (fun _ _ => False) c ev c'.
Proof.
  intros R (t & o & p & E). apply no_deadlock.
  - eapply lockInv_reach; [now left|exact R].
  - exists t. congruence.
Qed.

Theorem C38_all_free {K V} (eqb : K -> K -> bool) (zero : V) (nsh : nat) (hash : K -> Z)
  (allow : nat -> op K V -> Prop) tr c : reach eqb zero nsh hash allow tr c ->
  (forall t, thr c t = Idle) ->
  forall s, writer (mu (shm c) s) = None /\ readers (mu (shm c) s) = [].
Proof. intros R. apply all_free. eapply lockInv_reach; [now left|exact R]. Qed.

(** A reader in the shard, a writer waiting for it and a reader kept out. *)
Definition ex38 : list (action Z Z) :=
  [Inv 0 OClear; Inv 1 (OSet 4 1); Inv 2 OLen; Go 0; Go 1].
Example C38_case : let c := ex_final ex38 in
  ex_reach (fun _ _ => True) (ex_events ex38) c /\
  actf Z.eqb 0 2 (fun k => k) (Go 1) c = None /\ actf Z.eqb 0 2 (fun k => k) (Go 2) c = None /\
  actf Z.eqb 0 2 (fun k => k) (Go 0) c <> None.
Proof. split; [apply run_reach; allowed|]. repeat split; discriminate. Qed.

(** ** C39: Len *)

(** [during c evs cs c1]: the execution goes from c to c1 through [cs].  Len may
    return a size the map had at no instant of the call. *)
Definition ex39a : list (action Z Z) := Inv 1 (OSet 0 7) :: go 1 5 ++ [Inv 0 OLen].
Definition ex39b : list (action Z Z) :=
  go 0 3 ++ Inv 1 (ODelete 0) :: go 1 5 ++ Inv 1 (OSet 1 8) :: go 1 5 ++ go 0 3.
Theorem C39_len_refuted : let al := fun (_ : nat) (_ : op Z Z) => True in
  exists tr c evs cs c1 c',
    ex_reach al tr c /\ thr c 0%nat = Running OLen (progOf Z.eqb 0 2 (fun k => k) OLen) /\
    during Z.eqb 0 2 (fun k => k) al c evs cs c1 /\
    cstep Z.eqb 0 2 (fun k => k) al c1 [ERet 0%nat OLen (RInt 2)] c' /\
    (forall o r, ~ In (ERet 0%nat o r) evs) /\
    forall c2, In c2 cs -> size 2 c2 <> 2.
Proof.
  cbn zeta.
  destruct (execf Z.eqb 0 2 (fun k => k) ex39b (ex_final ex39a)) as [[[evs cs] c1]|] eqn:E;
    [|exfalso; vm_compute in E; discriminate].
  exists (ex_events ex39a), (ex_final ex39a), evs, cs, c1.
  assert (H : Some (map (size 2) cs, thr c1 0%nat, evs) =
              match execf Z.eqb 0 2 (fun k => k) ex39b (ex_final ex39a) with
              | Some (evs, cs, c1) => Some (map (size 2) cs, thr c1 0%nat, evs) | None => None end) by now rewrite E.
  match type of H with _ = ?r => let v := eval cbv in r in change r with v in H end.
  injection H as H1 H2 H3.
  exists {| shm := shm c1; thr := fupd (thr c1) 0%nat Idle |}.
  split; [apply run_reach; allowed|]. split; [reflexivity|].
  split; [eapply execf_during; [|exact E]; auto|].
  split; [destruct c1 as [sh th]; constructor; exact H2|].
  split.
  - intros o r. rewrite H3. cbn. intuition discriminate.
  - intros c2 Hi. apply (in_map (size 2)) in Hi. rewrite H1 in Hi. revert Hi.
    generalize (size 2 c2). intros z Hi. cbn in Hi. intuition lia.
Qed.

(** When the calls running during Len only add entries (d = 1), or only remove
    them (d = -1), what Len returns is the size at an instant of the call. *)
Theorem C39_len_partial {K V} (eqb : K -> K -> bool) (zero : V) (nsh : nat) (hash : K -> Z)
  (allow : nat -> op K V -> Prop) d t tr c evs cs c1 n c' :
  partial_equiv eqb -> (forall t o, allow t o -> forall fn, o <> OIterateShards fn) ->
  reach eqb zero nsh hash allow tr c -> (d = 1 \/ d = -1) ->
  thr c t = Running OLen (progOf eqb zero nsh hash OLen) ->
  during eqb zero nsh hash allow c evs cs c1 -> (forall o r, ~ In (ERet t o r) evs) ->
  cstep eqb zero nsh hash allow c1 [ERet t OLen (RInt n)] c' ->
  (forall c2 t2 o2 p2, In c2 cs -> thr c2 t2 = Running o2 p2 -> (d = 1 /\ growing o2) \/ (d = -1 /\ shrinking o2)) ->
  exists c2, In c2 cs /\ size nsh c2 = n.
Proof.
  intros PE HA R Hd E D Nr S HD.
  eapply (len_snapshot eqb zero nsh hash PE allow) with (d := d); try eassumption.
  - intros t1 o A. destruct o; cbn; auto. now apply (HA _ _ A fn).
  - intros c2 Hi t2 o2 p2 H2. eapply HD; eassumption.
Qed.

Definition ex39c : list (action Z Z) :=
  go 0 3 ++ Inv 1 (OSet 2 7) :: go 1 5 ++ Inv 1 (OSet 1 8) :: go 1 5 ++ go 0 3.
Example C39_case :
  match execf Z.eqb 0 2 (fun k => k) ex39c (ex_final ex39a) with
  | Some (_, cs, c1) =>
      nodup Z.eq_dec (map (size 2) cs) = [1; 2; 3] /\
      (forall c2, In c2 cs -> match thr c2 1%nat with Running o _ => growing o | Idle => True end) /\
      exists o, thr c1 0%nat = Running o (Ret (RInt 2))
  | None => False
  end.
Proof.
  cbv -[growing]. split; [reflexivity|]. split.
  - intros c2 Hi. repeat (destruct Hi as [<-|Hi]; [exact I|]). contradiction.
  - eexists. reflexivity.
Qed.

Print Assumptions C34_sequential.
Print Assumptions C34_total.
Print Assumptions C35_linearizable.
Print Assumptions C36_once.
Print Assumptions C36_same_value.
Print Assumptions C36_only_absent.
Print Assumptions C37_no_race_partial.
Print Assumptions C37_clear_race_refuted.
Print Assumptions C38_no_deadlock.
Print Assumptions C38_all_free.
Print Assumptions C39_len_refuted.
Print Assumptions C39_len_partial.
