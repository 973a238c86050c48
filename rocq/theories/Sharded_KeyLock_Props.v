(** C135: a key of a Sharded as a lock, and TrySet as an election. *)
From Verif Require Import Base GoMap XMap_Spec Sharded_Model Sharded_Spec Sharded_Locks Sharded_Lin Sharded_Factory Sharded_Exec
  Sharded_Props Sharded_KeyLock_Spec Sharded_KeyLock_Proofs.
Local Open Scope list_scope.

Lemma obeying {K V} (eqb : K -> K -> bool) zero nsh hash key tr (c : config K V) :
  reach eqb zero nsh hash (fun _ o => ~ wholesale o) tr c -> disciplined eqb key tr -> obeys eqb key tr.
Proof.
  intros R HD tr1 t o tr2 E. split; [|exact (HD tr1 t o tr2 E)].
  apply (invoked_allowed eqb zero nsh hash _ tr c R t). rewrite E. apply in_or_app. right. now left.
Qed.
Lemma explained {K V} (eqb : K -> K -> bool) zero nsh hash tr (c : config K V) :
  partial_equiv eqb -> (forall x y, eqb x y = true -> hash x = hash y) ->
  reach eqb zero nsh hash (fun _ o => ~ wholesale o) tr c -> linearizable eqb zero tr.
Proof.
  intros PE HC R. refine (C35_linearizable eqb zero nsh hash _ tr c PE HC _ R).
  intros _ o H. split; [intros ->; now apply H|intros fn ->; now apply H].
Qed.

(** *** If only a goroutine that has put the key there, with TrySet,
    GetOrSetDefault or GetOrSetFactory, deletes or sets it, then at any moment
    at most one goroutine has it. *)
Theorem C135_one_holder : forall K V (eqb : K -> K -> bool) (zero : V) nsh hash key tr c,
  partial_equiv eqb -> (forall x y, eqb x y = true -> hash x = hash y) ->
  reach eqb zero nsh hash (fun _ o => ~ wholesale o) tr c -> disciplined eqb key tr ->
  forall t u, holder eqb key tr t <> None -> holder eqb key tr u <> None -> t = u.
Proof.
  intros K V eqb zero nsh hash key tr c PE HC R HD t u Ht Hu.
  destruct (explained eqb zero nsh hash tr c PE HC R) as (h & p & L).
  pose proof (invariant eqb zero key PE tr h p L (obeying eqb zero nsh hash key tr c R HD)) as J.
  apply (inv_one _ _ _ _ _ J); now left.
Qed.
Print Assumptions C135_one_holder.

(** *** The holder reads what it wrote: whatever the others do, its own lookups of
    the key return the value it gave it last, and no attempt of its own to take
    the key again succeeds. *)
Theorem C135_holder_reads : forall K V (eqb : K -> K -> bool) (zero : V) nsh hash key tr c,
  partial_equiv eqb -> (forall x y, eqb x y = true -> hash x = hash y) ->
  reach eqb zero nsh hash (fun _ o => ~ wholesale o) tr c -> disciplined eqb key tr ->
  forall tr1 t o r tr2 v, tr = tr1 ++ ERet t o r :: tr2 -> holder eqb key tr1 t = Some v -> sees eqb key v o r.
Proof.
  intros K V eqb zero nsh hash key tr c PE HC R HD.
  destruct (explained eqb zero nsh hash tr c PE HC R) as (h & p & L).
  exact (holder_reads eqb zero key PE tr h p L (obeying eqb zero nsh hash key tr c R HD)).
Qed.
Print Assumptions C135_holder_reads.

(** *** TrySet fails only if the key is taken: at some moment between the call of
    a TrySet that returns false and its return, somebody holds the key, or
    somebody else is just taking it or giving it back. *)
Theorem C135_fails_only_if_taken : forall K V (eqb : K -> K -> bool) (zero : V) nsh hash key tr c,
  partial_equiv eqb -> (forall x y, eqb x y = true -> hash x = hash y) ->
  reach eqb zero nsh hash (fun _ o => ~ wholesale o) tr c -> disciplined eqb key tr ->
  forall tr1 u k v tr2, tr = tr1 ++ ERet u (OTrySet k v) (RBool false) :: tr2 -> eqb k key = true ->
    exists before during after, tr1 = before ++ EInv u (OTrySet k v) :: during ++ after /\
      without u (during ++ after) /\ contended eqb key u (before ++ EInv u (OTrySet k v) :: during).
Proof.
  intros K V eqb zero nsh hash key tr c PE HC R HD.
  destruct (explained eqb zero nsh hash tr c PE HC R) as (h & p & L).
  exact (fails_contended eqb zero key PE tr h p L (obeying eqb zero nsh hash key tr c R HD)).
Qed.
Print Assumptions C135_fails_only_if_taken.

(** *** An election: if nobody deletes or sets the key, at most one of all the calls
    that would put it there says that it did. *)
Theorem C135_one_winner : forall K V (eqb : K -> K -> bool) (zero : V) nsh hash key tr c,
  partial_equiv eqb -> (forall x y, eqb x y = true -> hash x = hash y) ->
  reach eqb zero nsh hash (fun _ o => ~ wholesale o /\ ~ holdersOnly eqb key o) tr c ->
  forall tr1 t o r tr2 u o' r', tr = tr1 ++ ERet t o r :: tr2 -> acquires eqb key o r <> None ->
    In (ERet u o' r') tr2 -> acquires eqb key o' r' = None.
Proof.
  intros K V eqb zero nsh hash key tr c PE HC R.
  assert (HF : free eqb key tr) by (intros t o; exact (invoked_allowed eqb zero nsh hash _ tr c R t o)).
  assert (HL : linearizable eqb zero tr).
  { refine (C35_linearizable eqb zero nsh hash _ tr c PE HC _ R). intros _ x [H _]. split; [intros ->; now apply H|intros fn ->; now apply H]. }
  destruct HL as (h & p & L).
  exact (one_winner eqb zero key PE tr h p L HF).
Qed.
Print Assumptions C135_one_winner.

(** *** ... and all the calls, of all goroutines, that tell a value of the key tell
    the same one, which is the winner's. *)
Theorem C135_all_agree : forall K V (eqb : K -> K -> bool) (zero : V) nsh hash key tr c,
  partial_equiv eqb -> (forall x y, eqb x y = true -> hash x = hash y) ->
  reach eqb zero nsh hash (fun _ o => ~ wholesale o /\ ~ holdersOnly eqb key o) tr c ->
  forall t o r v u o' r' v', In (ERet t o r) tr -> In (ERet u o' r') tr ->
    tells eqb key o r v -> tells eqb key o' r' v' -> v = v'.
Proof.
  intros K V eqb zero nsh hash key tr c PE HC R t o r v u o' r' v' H1 H2 T1 T2.
  assert (HF : free eqb key tr) by (intros w x; exact (invoked_allowed eqb zero nsh hash _ tr c R w x)).
  assert (HL : linearizable eqb zero tr).
  { refine (C35_linearizable eqb zero nsh hash _ tr c PE HC _ R). intros _ x [H _]. split; [intros ->; now apply H|intros fn ->; now apply H]. }
  destruct HL as (h & p & L).
  destruct (all_agree eqb zero key PE tr h p L HF) as (_ & HA & _).
  pose proof (HA _ _ _ _ H1 T1). pose proof (HA _ _ _ _ H2 T2). congruence.
Qed.
Print Assumptions C135_all_agree.

(** To check the discipline of a given history. *)
Section Check.
  Context {K V : Type} (eqb : K -> K -> bool) (key : K).
  Definition mayCall (own : nat -> option V) (e : event K V) : bool :=
    match e with
    | EInv t (ODelete k) | EInv t (OSet k _) => if eqb k key then match own t with Some _ => true | None => false end else true
    | _ => true
    end.
  Fixpoint checked (own : nat -> option V) (tr : list (event K V)) : bool :=
    match tr with [] => true | e :: tr' => mayCall own e && checked (next eqb key own e) tr' end.
  Lemma checked_sound tr : checked (fun _ => None) tr = true -> disciplined eqb key tr.
  Proof.
    unfold disciplined, holder. generalize (fun _ : nat => @None V) as own.
    induction tr as [|e tr IH]; intros own H tr1 t o tr2 E; [destruct tr1; discriminate|].
    cbn [checked] in H. apply andb_prop in H as [H1 H2]. destruct tr1 as [|e1 tr1].
    - injection E as -> ->. cbn [fold_left]. destruct o; cbn in H1 |- *; try tauto; intros Ek; rewrite Ek in H1; destruct (own t); discriminate.
    - injection E as -> ->. cbn [fold_left]. exact (IH _ H2 tr1 t o tr2 eq_refl).
  Qed.
End Check.

(** Non-vacuity: goroutine 0 takes key 4, 1 tries in vain, 0 sets and deletes it,
    1 takes it; goroutine 0 held it and goroutine 1 does. *)
Definition ex135 : list (action Z Z) :=
  [Inv 0 (OTrySet 4 1); Inv 1 (OTrySet 4 2)] ++ go 0 6 ++ go 1 5 ++
  Inv 0 (OSet 4 7) :: go 0 5 ++ Inv 0 (OTryGet 4) :: go 0 4 ++ Inv 1 (OGetOrSetDefault 4 3) :: Inv 0 (ODelete 4) :: go 0 5 ++ go 1 9.
Example C135_lock_case :
  ex_reach (fun _ o => ~ wholesale o) (ex_events ex135) (ex_final ex135) /\ disciplined Z.eqb 4%Z (ex_events ex135) /\
  holder Z.eqb 4%Z (firstn 6 (ex_events ex135)) 0%nat = Some 7%Z /\ holder Z.eqb 4%Z (ex_events ex135) 1%nat = Some 3%Z /\
  returns (ex_events ex135) =
    [(OTrySet 4 1, RBool true); (OTrySet 4 2, RBool false); (OSet 4 7, RUnit); (OTryGet 4, ROpt 7 true); (ODelete 4, RUnit);
     (OGetOrSetDefault 4 3, ROpt 3 false)]%Z.
Proof. split; [apply run_reach; allowed|]. split; [apply checked_sound; reflexivity|]. repeat split; reflexivity. Qed.

(** ... and an election among three. *)
Definition ex135b : list (action Z Z) :=
  [Inv 0 (OTrySet 4 1); Inv 1 (OGetOrSetDefault 4 2); Inv 2 (OGetOrSetFactory 4 (Some 3)); Go 2; Go 2; Go 2] ++ go 1 9 ++ go 0 5 ++ go 2 5.
Example C135_election_case :
  ex_reach (fun _ o => ~ wholesale o /\ ~ holdersOnly Z.eqb 4%Z o) (ex_events ex135b) (ex_final ex135b) /\
  returns (ex_events ex135b) =
    [(OGetOrSetDefault 4 2, ROpt 2 false); (OTrySet 4 1, RBool false); (OGetOrSetFactory 4 (Some 3), ROpt 2 true)]%Z.
Proof. split; [apply run_reach; allowed|reflexivity]. Qed.

(** *** The discipline is needed: after a Delete by somebody else two goroutines
    hold the key. *)
Definition ex135c : list (action Z Z) :=
  Inv 0 (OTrySet 4 1) :: go 0 6 ++ Inv 2 (ODelete 4) :: go 2 5 ++ Inv 1 (OTrySet 4 2) :: go 1 6.
Theorem C135_discipline_needed : exists tr c, ex_reach (fun _ o => ~ wholesale o) tr c /\
  holder Z.eqb 4%Z tr 0%nat = Some 1%Z /\ holder Z.eqb 4%Z tr 1%nat = Some 2%Z.
Proof. exists (ex_events ex135c), (ex_final ex135c). split; [apply run_reach; allowed|]. split; reflexivity. Qed.
Print Assumptions C135_discipline_needed.

(** *** A key that is not equal to itself (NaN) is no lock: every TrySet succeeds. *)
Theorem C135_nan : forall K V (eqb : K -> K -> bool) (zero : V) nsh hash key tr c,
  partial_equiv eqb -> (forall x y, eqb x y = true -> hash x = hash y) -> eqb key key = false ->
  reach eqb zero nsh hash (fun _ o => ~ wholesale o) tr c ->
  forall t v r, In (ERet t (OTrySet key v) r) tr -> r = RBool true.
Proof.
  intros K V eqb zero nsh hash key tr c PE HC HN R t v r Hi.
  destruct (explained eqb zero nsh hash tr c PE HC R) as (h & p & L). exact (never_taken eqb zero key PE tr h p L HN t v r Hi).
Qed.
Print Assumptions C135_nan.
