(** Properties C84 and C85 of xmap.Sharded: callbacks that call the map, and keys
    that cannot be hashed. *)
From Coq Require Import Permutation.
From Verif Require Import Base GoMap Sharded_Model Sharded_Locks Sharded_Exec Sharded_Reent_Model Sharded_Reent_Spec
  Sharded_Reent_Locks Sharded_Reent_Proofs.

(** The methods are those of Sharded_Model when every key can be hashed: the same
    instructions in the same order. *)
Theorem C84_same_methods {K V} (eqb : K -> K -> bool) (zero : V) (nsh : nat) (hash : K -> Z) (o : op K V) :
  same (opC eqb zero nsh (fun key => Some (hash key)) (fun _ => true) o (fun r => Ret r)) (progOf eqb zero nsh hash o).
Proof. apply same_op. Qed.

(** So are the methods that take a callback, when the callback only returns or
    panics: Iterate with one that panics at the entries where [fn] is false,
    IterateShards with one that changes the map it is given by [g], and
    GetOrSetFactory. *)
Theorem C84_same_callbacks {K V} (eqb : K -> K -> bool) (zero : V) (nsh : nat) (hash : K -> Z) :
  let ret := fun r : res K V => Ret r in
  (forall (fn : K -> V -> bool) v, same (iterateC (allShards nsh)
     (fun key value k' => k' (if fn key value then Some v else None)) [] ret) (progOf eqb zero nsh hash (OIterate fn))) /\
  (forall (g : gomap K V -> gomap K V) v, same (iterateShardsC (allShards nsh) (fun k' => k' (Some v)) g ret)
     (progOf eqb zero nsh hash (OIterateShards g))) /\
  (forall key (factory : option V), same (getOrSetFactoryC eqb zero nsh (fun key => Some (hash key)) (fun _ => true) key
     (fun k' => k' factory) ret) (progOf eqb zero nsh hash (OGetOrSetFactory key factory))).
Proof.
  intros ret. split; [|split].
  - intros fn v. cbn [progOf]. generalize (@nil (K * V)). generalize (allShards nsh). intros ss.
    induction ss as [|s ss IH]; intros seen; cbn; [reflexivity|]. split; [reflexivity|]. split; [reflexivity|].
    intros l. revert seen. induction l as [|[key value] l IHl]; intros seen; cbn; [auto|].
    split; [reflexivity|]. intros _. destruct (fn key value); cbn; auto.
  - intros g v. cbn [progOf]. generalize (allShards nsh). intros ss. induction ss as [|s ss IH]; cbn; auto 10.
  - intros key factory. apply (same_op eqb zero nsh hash (OGetOrSetFactory key factory)).
Qed.

(** One goroutine runs [c]; the others have nothing to do. *)
Definition only {K V} (c : code K V) : nat -> code K V := fun t => match t with O => c | _ => Done None end.
(** Two goroutines. *)
Definition both {K V} (c c' : code K V) : nat -> code K V :=
  fun t => match t with O => c | S O => c' | _ => Done None end.

(** ** C84: callbacks that call the map *)

(** GetOrSetFactory(key, factory) never returns, even alone on a new map, if the
    factory calls anything that looks at the shard of [key]: any call with a key
    of this shard, [key] itself for one, and Len, Keys, Iterate and so on. *)
Theorem C84_factory_refuted {K V} (eqb : K -> K -> bool) (zero : V) (nsh : nat) (hasher : K -> option Z)
  (hashable : K -> bool) key s (o : op K V) k1 k2 :
  shardOf nsh hasher key = Some s -> hashable key = true -> touches nsh hasher o s ->
  forall c, steps (start eqb zero nsh hasher hashable (only (DoGetOrSetFactory key (Do o k1) k2))) c ->
  forall r, ~ returned c 0 r.
Proof.
  intros E Hh T c St. eapply (factory_never eqb zero nsh hasher hashable key s o k1 k2 finish E Hh T); [| | |exact St].
  - reflexivity.
  - reflexivity.
  - intros [|t] Ht; [congruence|]. cbn. unfold finish. eauto.
Qed.

(** Iterate never returns if the callback sets a key of a shard being visited. *)
Theorem C84_iterate_set_refuted {K V} (eqb : K -> K -> bool) (zero : V) (nsh : nat) (hasher : K -> option Z)
  (hashable : K -> bool) key v key' v' s (k1 k2 : res K V -> code K V) :
  (s < nsh)%nat -> shardOf nsh hasher key = Some s -> hashable key = true -> shardOf nsh hasher key' = Some s ->
  forall c, steps (start eqb zero nsh hasher hashable
    (only (Do (OSet key v) (fun _ => DoIterate (fun _ _ => Do (OSet key' v') k1) k2)))) c ->
  forall r, ~ returned c 0 r.
Proof.
  intros L E Hh E' c St.
  eapply (iterate_never eqb zero nsh hasher hashable key v s key' v' k1 k2 finish L E Hh E'); [| | |exact St].
  - reflexivity.
  - reflexivity.
  - intros [|t] Ht; [congruence|]. cbn. unfold finish. eauto.
Qed.

Definition hash2 (key : Z) : option Z := Some key.
Definition ok2 (_ : Z) : bool := true.
Notation start2 := (start Z.eqb 0 2 hash2 ok2).
Notation stop := (fun _ => Done (Some 0)).
(** A callback of Iterate that only reads: alone it returns (C84_alone_partial),
    but another goroutine waiting to write the shard stops both for ever. *)
Theorem C84_iterate_get_refuted :
  let reader := Do (OSet 0 7) (fun _ => DoIterate (fun key _ => Do (OGet key) stop) stop) in
  let writer := Do (OSet 2 8) stop in
  exists c, steps (start2 (both reader writer)) c /\
    (forall c', ~ step c c') /\ forall t r, (t < 2)%nat -> ~ returned c t r.
Proof.
  apply (dead_sound 2 [0; 0; 0; 0; 0; 0; 0; 0; 1]%nat); [|reflexivity|reflexivity].
  intros [|[|t]] Ht; try lia. cbn. unfold finish. eauto.
Qed.

(** Two factories, each looking up the key of the other: each would return alone. *)
Theorem C84_crossing_refuted :
  let first := DoGetOrSetFactory 0 (Do (OHas 1) stop) stop in
  let second := DoGetOrSetFactory 1 (Do (OHas 0) stop) stop in
  exists c, steps (start2 (both first second)) c /\
    (forall c', ~ step c c') /\ forall t r, (t < 2)%nat -> ~ returned c t r.
Proof.
  apply (dead_sound 2 [0; 0; 0; 0; 0; 0; 0; 1; 1; 1; 1; 1; 1; 1]%nat); [|reflexivity|reflexivity].
  intros [|[|t]] Ht; try lia. cbn. unfold finish. eauto.
Qed.

(** What does hold.  One goroutine alone: if its callbacks, and theirs, ask for no
    shard the goroutine holds already, except to read a shard held for reading, it
    returns, whatever happens, and leaves all the locks free. *)
Theorem C84_alone_partial {K V} (eqb : K -> K -> bool) (zero : V) (nsh : nat) (hasher : K -> option Z)
  (hashable : K -> bool) (c : code K V) : (0 < nsh)%nat ->
  okCode nsh hasher hashable notHeld [] c ->
  inevitably allReturned (start eqb zero nsh hasher hashable (only c)).
Proof. intros L. now apply alone_inevitable. Qed.

(** Any number of goroutines: if there is a ranking of the shards such that every
    callback asks only for shards ranked above those its goroutine holds, all the
    goroutines return, whatever the schedule. *)
Theorem C84_ordered_partial {K V} (eqb : K -> K -> bool) (zero : V) (nsh : nat) (hasher : K -> option Z)
  (hashable : K -> bool) (rank : nat -> nat) n (codes : nat -> code K V) : (0 < nsh)%nat ->
  (forall t, (n <= t)%nat -> exists r, codes t = Done r) ->
  (forall t, okCode nsh hasher hashable (inOrder rank) [] (codes t)) ->
  inevitably allReturned (start eqb zero nsh hasher hashable codes).
Proof. intros L. now apply ordered_inevitable. Qed.

(** The callback looks at the key it is given, the whole map and its size. *)
Example C84_alone_case : let c := Do (OSet 0 7) (fun _ => Do (OSet 1 8) (fun _ =>
    DoIterate (fun key _ => Do (OGet key) (fun _ => Do OLen (fun _ => DoIterate (fun _ _ => Done (Some 1)) stop))) stop)) in
  okCode 2 hash2 ok2 notHeld [] c /\
  inevitably allReturned (start2 (only c)).
Proof.
  assert (OK : okCode 2 hash2 ok2 notHeld [] (Do (OSet 0 7) (fun _ => Do (OSet 1 8) (fun _ =>
    DoIterate (fun key _ => Do (OGet key) (fun _ => Do OLen (fun _ => DoIterate (fun _ _ => Done (Some 1)) stop))) stop)))).
  { assert (N : forall s ex, notHeld [] s ex) by (intros s ex ex' []).
    assert (R : forall h s, (forall x e, In (x, e) h -> e = false) -> notHeld h s false).
    { intros h s H ex' Hi. split; [reflexivity|eauto]. }
    cbn. unfold okOp, okKey. cbn.
    repeat match goal with
    | |- notHeld [] _ _ => apply N
    | |- notHeld _ _ false => apply R; intros ? ? Hi; cbn in Hi; intuition congruence
    | |- _ /\ _ => split
    | H : Some _ = Some _ |- _ => injection H as <-
    | |- True => exact I
    | |- okKey _ _ _ _ _ _ _ => unfold okKey; destruct (shardOf _ _ _); cbn
    | |- _ = _ => first [reflexivity|discriminate]
    | |- _ -> _ => intros ?
    | |- forall _, _ => intros ?
    | _ => progress cbn
    end; discriminate. }
  split; [exact OK|]. apply C84_alone_partial; [auto|exact OK].
Qed.

(** Factories that look up keys of higher shards, two goroutines. *)
Example C84_ordered_case : let codes := both
    (DoGetOrSetFactory 0 (DoGetOrSetFactory 1 (Done (Some 5)) stop) (fun _ => Do OLen stop))
    (DoGetOrSetFactory 1 (Done (Some 4)) (fun _ => DoGetOrSetFactory 2 (Do (OGet 3) stop) stop)) in
  (forall t, okCode 2 hash2 ok2 (inOrder (fun s => s)) [] (codes t)) /\
  inevitably allReturned (start2 codes).
Proof.
  cbn zeta.
  assert (OK : forall t, okCode 2 hash2 ok2 (inOrder (fun s => s)) [] (both
    (DoGetOrSetFactory 0 (DoGetOrSetFactory 1 (Done (Some 5)) stop) (fun _ => Do OLen stop))
    (DoGetOrSetFactory 1 (Done (Some 4)) (fun _ => DoGetOrSetFactory 2 (Do (OGet 3) stop) stop)) t)).
  { assert (N : forall s ex, inOrder (fun s => s) [] s ex) by (intros s ex s' e []).
    assert (One : forall e ex, inOrder (fun s => s) [(0%nat, e)] 1%nat ex).
    { intros e ex s' e' [[= <- _]|[]]. lia. }
    intros [|[|t]]; cbn; unfold okOp, okKey; cbn;
    repeat match goal with
    | |- inOrder _ [] _ _ => apply N
    | |- inOrder _ [(0%nat, _)] _ _ => apply One
    | |- _ /\ _ => split
    | H : Some _ = Some _ |- _ => injection H as <-
    | |- True => exact I
    | |- _ = _ => first [reflexivity|discriminate]
    | |- _ -> _ => intros ?
    | |- forall _, _ => intros ?
    | _ => progress (unfold okOp, okKey; cbn)
    end. }
  split; [exact OK|]. apply (C84_ordered_partial Z.eqb 0 2 hash2 ok2 (fun s => s) 2); [auto| |exact OK].
  intros [|[|t]] Ht; try lia. cbn. eauto.
Qed.

(** ** C85: keys that cannot be hashed *)

(** With one shard the hasher is not used; with a hasher that does not panic on
    such a key, the same happens.  A goroutine calls Set, TrySet or Delete and
    recovers from the panic.  From then on no call of any other goroutine that
    looks at this shard returns. *)
Theorem C85_write_refuted {K V} (eqb : K -> K -> bool) (zero : V) (nsh : nat) (hasher : K -> option Z)
  (hashable : K -> bool) key s (o1 : op K V) (others : nat -> op K V) (k : res K V -> code K V) :
  hashable key = false -> shardOf nsh hasher key = Some s ->
  (exists v, o1 = OSet key v \/ o1 = OTrySet key v \/ o1 = ODelete key) ->
  (forall t, touches nsh hasher (others t) s) ->
  exists c,
    steps (start eqb zero nsh hasher hashable
             (fun t => match t with O => Do o1 (fun _ => Done None) | _ => Do (others t) k end)) c /\
    returned c 0 RPanic /\
    forall t c', t <> 0%nat -> steps c c' -> forall r, ~ returned c' t r.
Proof.
  intros Hh E Ho T.
  eexists. split; [|split].
  - eapply steps_next; [eapply steps_next; [constructor|]|].
    + eapply step_tau with (t := 0%nat). cbn. rewrite (leak_writer _ _ _ _ _ _ _ _ _ Hh E Ho). constructor. reflexivity.
    + eapply step_tau with (t := 0%nat). rewrite fupd_same. constructor; cbn; now rewrite fupd_same.
  - unfold returned. cbn [run]. rewrite fupd_same. reflexivity.
  - intros t c' Ht St. eapply (sealed_never 0 s t); [| |exact St].
    + split; cbn [mem mu run setMu]; [now rewrite fupd_same|]. rewrite fupd_same. exact I.
    + cbn [run]. rewrite !fupd_other by congruence. destruct t; [congruence|]. cbn. apply must_op, T.
Qed.

(** The same goroutine going on to use the map waits for ever too. *)
Theorem C85_write_self_refuted {K V} (eqb : K -> K -> bool) (zero : V) (nsh : nat) (hasher : K -> option Z)
  (hashable : K -> bool) key s (o1 o2 : op K V) (k : res K V -> code K V) :
  hashable key = false -> shardOf nsh hasher key = Some s ->
  (exists v, o1 = OSet key v \/ o1 = OTrySet key v \/ o1 = ODelete key) ->
  touches nsh hasher o2 s ->
  forall c, steps (start eqb zero nsh hasher hashable (only (Do o1 (fun _ => Do o2 k)))) c ->
  forall r, ~ returned c 0 r.
Proof.
  intros Hh E Ho T c St.
  assert (N : never {| items := fun _ => []; mu := fun _ => {| writer := None; readers := [] |} |}
                (compile eqb zero nsh hasher hashable (Do o1 (fun _ => Do o2 k)) finish)).
  { cbn [compile]. rewrite (leak_writer _ _ _ _ _ _ _ _ _ Hh E Ho).
    apply never_lock. apply never_sealed with (s := s); [cbn; now rewrite fupd_same|].
    intros fin. apply must_op, T. }
  eapply N; [| | |exact St]; [reflexivity|reflexivity|].
  intros [|t] Ht; [congruence|]. cbn. unfold finish. eauto.
Qed.

(** After a lookup that panicked, no write to the shard returns. *)
Theorem C85_read_refuted {K V} (eqb : K -> K -> bool) (zero : V) (nsh : nat) (hasher : K -> option Z)
  (hashable : K -> bool) key s (o1 : op K V) (others : nat -> op K V) (k : res K V -> code K V) :
  hashable key = false -> shardOf nsh hasher key = Some s ->
  (o1 = OGet key \/ o1 = OTryGet key \/ o1 = OHas key \/ (exists v, o1 = OGetOrSetDefault key v) \/
   exists f, o1 = OGetOrSetFactory key f) ->
  (forall t, exists key' v, shardOf nsh hasher key' = Some s /\
     (others t = OSet key' v \/ others t = OTrySet key' v \/ others t = ODelete key')) ->
  exists c,
    steps (start eqb zero nsh hasher hashable
             (fun t => match t with O => Do o1 (fun _ => Done None) | _ => Do (others t) k end)) c /\
    returned c 0 RPanic /\
    forall t c', t <> 0%nat -> steps c c' -> forall r, ~ returned c' t r.
Proof.
  intros Hh E Ho T.
  eexists. split; [|split].
  - eapply steps_next; [constructor|].
    eapply step_tau with (t := 0%nat). cbn. rewrite (leak_reader _ _ _ _ _ _ _ _ Hh E Ho). constructor. reflexivity.
  - unfold returned. cbn [run]. rewrite fupd_same. reflexivity.
  - intros t c' Ht St. eapply (stays_never 0 s t); [| |exact St].
    + split; cbn [mem mu run setMu readers]; [rewrite fupd_same; cbn; now left|]. left. rewrite fupd_same. cbn. unfold finish. eauto.
    + cbn [run]. rewrite !fupd_other by congruence. destruct t; [congruence|]. left. cbn [compile].
      destruct (T (S t)) as (key' & v & E' & H). eapply writer_must; [exact E'|eauto].
Qed.

(** What does hold: with two shards or more and a hasher that panics on every key
    that cannot be hashed, as the default one does (C83_panics), such a call
    panics before it locks anything ... *)
Theorem C85_panics_partial {K V} (eqb : K -> K -> bool) (zero : V) (nsh : nat) (hasher : K -> option Z)
  (hashable : K -> bool) (o : op K V) key ex : (2 <= nsh)%nat ->
  (forall key, hashable key = false -> hasher key = None) ->
  keyOf o = Some (key, ex) -> hashable key = false ->
  opC eqb zero nsh hasher hashable o (fun r => Ret r) = Ret RPanic.
Proof.
  intros L Hs Ek Hh. eapply shardOf_none_op; [exact Ek|]. unfold shardOf.
  destruct (Nat.eqb_spec nsh 1); [lia|]. now rewrite Hs.
Qed.

(** ... and goroutines that recover from such panics all return, whatever the
    schedule, and leave all the locks free. *)
Theorem C85_usable_partial {K V} (eqb : K -> K -> bool) (zero : V) (nsh : nat) (hasher : K -> option Z)
  (hashable : K -> bool) n (codes : nat -> code K V) : (2 <= nsh)%nat ->
  (forall key, hashable key = false -> hasher key = None) ->
  (forall t, flat (codes t)) -> (forall t, (n <= t)%nat -> exists r, codes t = Done r) ->
  inevitably allReturned (start eqb zero nsh hasher hashable codes).
Proof.
  intros L Hs F Hn. eapply ordered_inevitable with (rank := fun _ => 0%nat); [lia|exact Hn|].
  intros t. apply flat_ok; [exact eqb| |apply F]. intros key Hh. unfold shardOf.
  destruct (Nat.eqb_spec nsh 1); [lia|]. now rewrite Hs.
Qed.

(** ** C38: with keys that can be hashed and callbacks that leave the map alone,
    goroutines making any calls, each depending on the results of those before,
    all return, whatever the schedule, and leave all the locks free *)
Theorem C38_all_return {K V} (eqb : K -> K -> bool) (zero : V) (nsh : nat) (hash : K -> Z)
  n (codes : nat -> code K V) : (0 < nsh)%nat ->
  (forall t, flat (codes t)) -> (forall t, (n <= t)%nat -> exists r, codes t = Done r) ->
  inevitably allReturned (start eqb zero nsh (fun key => Some (hash key)) (fun _ => true) codes).
Proof.
  intros L F Hn. eapply ordered_inevitable with (rank := fun _ => 0%nat); [lia|exact Hn|].
  intros t. apply flat_ok; [exact eqb| |apply F]. discriminate.
Qed.

(** A reader of the whole map and a goroutine that writes, clears and reads. *)
Example C38_all_return_case : let codes := both (K := Z) (V := Z)
    (Do (OIterate (fun _ _ => true)) (fun r => Do OLen stop))
    (Do (OSet 4 7) (fun _ => Do OClear (fun _ => Do (OTrySet 5 8) (fun _ => Do OEntries stop)))) in
  inevitably allReturned (start Z.eqb 0 2 (fun key => Some key) (fun _ => true) codes).
Proof.
  apply (C38_all_return Z.eqb 0 2 (fun key => key) 2); [lia| |].
  - intros [|[|t]]; cbn; [| |exact I]; repeat (split; [discriminate|]; intros _); exact I.
  - intros [|[|t]] Ht; try lia. cbn. eauto.
Qed.

(** Negative keys cannot be hashed. *)
Definition badKey (key : Z) : bool := 0 <=? key.
Definition badHash (key : Z) : option Z := if badKey key then Some key else None.
Example C85_case : let codes := both (K := Z) (V := Z)
    (Do (OSet (-1) 7) (fun r => match r with RPanic => Do (OSet 2 7) (fun _ => Do OLen stop) | _ => Done None end))
    (Do (OGetOrSetDefault (-3) 7) (fun r => match r with RPanic => Do (OTrySet 2 9) stop | _ => Done None end)) in
  (forall t, flat (codes t)) /\ inevitably allReturned (start Z.eqb 0 2 badHash badKey codes) /\
  (* with one shard, goroutine 0 never returns *)
  forall c, steps (start Z.eqb 0 1 badHash badKey
    (only (Do (OSet (-1) 7) (fun _ => Do (OSet 2 7) (fun _ => Do OLen stop))))) c -> forall r, ~ returned c 0 r.
Proof.
  cbn zeta.
  assert (F : forall t, flat (both (K := Z) (V := Z)
    (Do (OSet (-1) 7) (fun r => match r with RPanic => Do (OSet 2 7) (fun _ => Do OLen stop) | _ => Done None end))
    (Do (OGetOrSetDefault (-3) 7) (fun r => match r with RPanic => Do (OTrySet 2 9) stop | _ => Done None end)) t)).
  { intros [|[|t]]; cbn; [| |exact I].
    - split; [discriminate|]. intros []; cbn; auto. split; [discriminate|]. intros _. split; [discriminate|auto].
    - split; [discriminate|]. intros []; cbn; auto. split; [discriminate|auto]. }
  split; [exact F|]. split.
  - apply (C85_usable_partial Z.eqb 0 2 badHash badKey 2); [auto| |exact F|].
    + intros key Hk. unfold badHash. now rewrite Hk.
    + intros [|[|t]] Ht; try lia. cbn. eauto.
  - intros c St. eapply (C85_write_self_refuted Z.eqb 0 1 badHash badKey (-1) 0%nat); [reflexivity|reflexivity| | |exact St]; [eauto|reflexivity].
Qed.

Print Assumptions C84_same_methods.
Print Assumptions C84_same_callbacks.
Print Assumptions C84_factory_refuted.
Print Assumptions C84_iterate_set_refuted.
Print Assumptions C84_iterate_get_refuted.
Print Assumptions C84_crossing_refuted.
Print Assumptions C84_alone_partial.
Print Assumptions C84_ordered_partial.
Print Assumptions C85_write_refuted.
Print Assumptions C85_write_self_refuted.
Print Assumptions C85_read_refuted.
Print Assumptions C85_panics_partial.
Print Assumptions C85_usable_partial.
Print Assumptions C38_all_return.
