(** Property C87 of xmap.Sharded, exactly: which answer the calls that look at
    the whole map give, whatever other goroutines do meanwhile. *)
From Coq Require Import Permutation.
From Verif Require Import Base Arr GoMap Sharded_Model Sharded_Spec Sharded_Len Sharded_Exec Sharded_Moments_Spec
  Sharded_Moments_Proofs Sharded_Props Sharded_Props2.

(** The call is made in state c0, runs through the states cs, the last of which
    is c1, and returns r.  There are moments of the call, one for each shard and
    in the order of the shards, such that r tells exactly of what each shard
    held at its moment.  Any calls may run meanwhile, Clear and IterateShards
    too, and the keys need not be equal to themselves. *)
Theorem C87_moments {K V} (eqb : K -> K -> bool) (zero : V) (nsh : nat) (hash : K -> Z)
  (allow : nat -> op K V -> Prop) t o r c0 c evs cs c1 c' :
  cstep eqb zero nsh hash allow c0 [EInv t o] c -> looks o ->
  during eqb zero nsh hash allow c evs cs c1 -> (forall o' r', ~ In (ERet t o' r') evs) ->
  cstep eqb zero nsh hash allow c1 [ERet t o r] c' ->
  exists sts, List.length sts = nsh /\ inOrder sts cs /\ tellsParts eqb (partsFrom 0 sts) o r.
Proof. intros S0 Lo D NR S1. eapply moments; eassumption. Qed.

(** Goroutine 1 clears the map {0: 7, 3: 9} of two shards after Entries has read
    shard 0, then sets key 2: Entries tells of shard 0 before, shard 1 after. *)
Definition ex87c : list (action Z Z) :=
  go 0 3 ++ Inv 1 OClear :: go 1 7 ++ Inv 1 (OSet 2 8) :: go 1 5 ++ go 0 3.
Example C87_moments_case :
  match execf Z.eqb 0 2 (fun k => k) ex87c (ex_final (ex87a ++ [Inv 0 OEntries])) with
  | Some (evs, cs, c1) =>
      thr c1 0%nat = Running OEntries (Ret (REntries [(0, 7)])) /\
      forallb (fun e => match e with ERet 0%nat _ _ => false | _ => true end) evs = true /\
      items (shm c1) 0%nat = [(2, 8)] /\ items (shm c1) 1%nat = []
  | None => False
  end.
Proof. cbv. auto. Qed.
(** The specification rejects what no shards hold, and a wrong order of shards. *)
Example C87_moments_spec :
  let parts := [[(0, 7); (2, 8)]; [(1, 9)]] in
  tellsParts Z.eqb parts OEntries (REntries [(2, 8); (0, 7); (1, 9)]) /\
  ~ tellsParts Z.eqb parts OEntries (REntries [(1, 9); (0, 7); (2, 8)]) /\
  ~ tellsParts Z.eqb parts OKeys (RKeys [0; 2]) /\ ~ tellsParts Z.eqb parts OLen (RInt 2) /\
  ~ tellsParts Z.eqb parts OEmpty (RBool true).
Proof.
  intros parts.
  assert (P : forall ls, Forall2 (@Permutation _) ls parts -> exists a, ls = [a; [(1, 9)]] /\ (a = [(0, 7); (2, 8)] \/ a = [(2, 8); (0, 7)])).
  { intros ls F. inversion F as [|a b la lb P1 F1]; subst. inversion F1 as [|a1 b1 la1 lb1 P2 F2]; subst. inversion F2; subst.
    apply Permutation_sym, Permutation_length_1_inv in P2 as ->. exists a. split; [reflexivity|].
    apply Permutation_sym, Permutation_length_2_inv in P1. exact P1. }
  split; [|split; [|split; [|split]]].
  - exists [[(2, 8); (0, 7)]; [(1, 9)]]. split; [repeat constructor|reflexivity].
  - intros (ls & F & E). destruct (P ls F) as (a & -> & [->| ->]); cbn in E; discriminate.
  - intros (ls & F & E). destruct (P ls F) as (a & -> & [->| ->]); cbn in E; discriminate.
  - intros (ls & F & E). destruct (P ls F) as (a & -> & [->| ->]); cbn in E; discriminate.
  - intros (ls & F & E). destruct (P ls F) as (a & -> & [->| ->]); cbn in E; discriminate.
Qed.

Print Assumptions C87_moments.
