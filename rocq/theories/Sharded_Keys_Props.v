(** C108: xmap.Sharded with keys of any type. *)
From Coq Require Import Permutation.
From Verif Require Import Base GoMap XMap_Spec Sharded_Model Sharded_Spec Sharded_Locks Sharded_Seq Sharded_Exec
  Sharded_Keys_Spec Sharded_Keys_Proofs.

(** Used by one goroutine, with any number of shards, any == that is symmetric
    and transitive and any hash that agrees with it, every call answers as one Go
    map would after the same calls: [mapAnswer].  IterateShards is included when
    its callback goes through the entries, deleting and changing some. *)
Theorem C108_one_map {K V} (eqb : K -> K -> bool) (zero : V) (nsh : nat) (hash : K -> Z) tr c :
  partial_equiv eqb -> hashRespects eqb hash -> (0 < nsh)%nat ->
  reach eqb zero nsh hash (fun t o => t = 0%nat /\ ordinary o) tr c ->
  hist (mapAnswer eqb zero) [] (map fst (returns tr)) (map snd (returns tr)).
Proof. intros PE HR Hn R. now apply (seq_reachG eqb zero nsh hash PE HR Hn tr c R). Qed.
Print Assumptions C108_one_map.

(** The same for float64 keys, whatever the runtime's random numbers for NaNs
    and whatever [raw] hash of the other numbers. *)
Theorem C108_floats {V} (zero : V) (nsh : nat) (raw : Z -> Z) tr c :
  (0 < nsh)%nat ->
  reach floatEq zero nsh (floatHash raw) (fun t o => t = 0%nat /\ ordinary o) tr c ->
  hist (mapAnswer floatEq zero) [] (map fst (returns tr)) (map snd (returns tr)).
Proof. intros Hn R. eapply C108_one_map; eauto using floatEq_pe, floatHash_ok. Qed.
Print Assumptions C108_floats.

(** In that map, a key that is not equal to itself is never found, a Set of it
    always adds an entry and a Delete of it removes nothing. *)
Theorem C108_nan {K V} (eqb : K -> K -> bool) x (v : V) h :
  partial_equiv eqb -> eqb x x = false ->
  gget eqb (oneMap eqb h) x = None /\
  oneMap eqb (OSet x v :: h) = oneMap eqb h ++ [(x, v)] /\
  oneMap eqb (ODelete x :: h) = oneMap eqb h.
Proof.
  intros PE Hx. assert (G : forall m : gomap K V, gget eqb m x = None).
  { intros m. apply gget_none_iff. intros k w _. destruct (eqb k x) eqn:E; [|reflexivity].
    rewrite (pe_trans _ PE x k x) in Hx; [discriminate|now apply (pe_sym _ PE)|assumption]. }
  split; [apply G|]. cbn. split; [now apply gset_new|now apply gdel_none].
Qed.
Print Assumptions C108_nan.

(** +0 and -0 are one key, the one last set; each Set of a NaN adds an entry, in
    this execution in different shards. *)
Definition posZero : floatKey := (0, 0).
Definition negZero : floatKey := (2 ^ 63, 0).
Definition nan (r : Z) : floatKey := (2047 * 2 ^ 52 + 1, r).
Definition ex108 : list (action floatKey Z) :=
  let go (n : nat) := repeat (Go 0) n in
  Inv 0 (OSet posZero 7) :: go 5%nat ++ Inv 0 (OSet negZero 8) :: go 5%nat ++ Inv 0 (OTryGet posZero) :: go 4%nat ++
  Inv 0 (OSet (nan 0) 1) :: go 5%nat ++ Inv 0 (OSet (nan 1) 2) :: go 5%nat ++ Inv 0 (ODelete (nan 0)) :: go 5%nat ++
  Inv 0 (OIterateShards (entrywise (fun _ v => if v =? 2 then None else Some (v * 10)))) :: go 11%nat ++
  Inv 0 OLen :: go 7%nat ++ Inv 0 OEntries :: go 7%nat.
Example C108_case :
  let tr := events floatEq 0 2 (floatHash (fun b => b)) ex108 in
  reach floatEq 0 2 (floatHash (fun b => b)) (fun t o => t = 0%nat /\ ordinary o) tr
    (final floatEq 0 2 (floatHash (fun b => b)) ex108) /\
  map snd (returns tr) = [RUnit; RUnit; ROpt 8 true; RUnit; RUnit; RUnit; RUnit; RInt 2;
                          REntries [(negZero, 80); (nan 0, 10)]].
Proof.
  cbv zeta. split; [|vm_compute; reflexivity]. apply run_reach.
  intros t o Hi. unfold ex108 in Hi. cbn in Hi.
  repeat (destruct Hi as [Hi|Hi]; [try discriminate Hi; injection Hi; intros; subst; cbn; eauto|]). contradiction.
Qed.

(** The hash has to agree with ==: with one that does not, a key set is not found. *)
Example C108_hash_needed :
  let tr := events floatEq 0 2 (fun x => if fst x =? 0 then 0 else 1)
    (Inv 0 (OSet posZero 7) :: repeat (Go 0) 5%nat ++ Inv 0 (OTryGet negZero) :: repeat (Go 0) 4%nat) in
  floatEq posZero negZero = true /\ map snd (returns tr) = [RUnit; ROpt 0 false].
Proof. cbv zeta. split; vm_compute; reflexivity. Qed.
