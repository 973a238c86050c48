(** C122: goroutines that lock shards in one order all finish. *)
From Coq Require Import Permutation.
From Verif Require Import Base GoMap Sharded_Model Sharded_Locks Sharded_Outer_Model Sharded_Outer_Spec Sharded_Outer_Proofs
  Sharded_Order_Spec Sharded_Order_Proofs.
Local Open Scope list_scope.
Local Open Scope Z_scope.

(** *** C122: finitely many goroutines lock shards of a Sharded themselves, and
    call its methods while they hold some.  If they all keep to one order of the
    shards then, whatever the schedule, all of them end and every shard is
    unlocked. *)
Theorem C122_all_end : forall K V (eqb : K -> K -> bool) (zero : V) nsh hash, (0 < nsh)%nat ->
  forall rank n clients,
  (forall t, (n <= t)%nat -> clients t = CEnd) ->
  (forall t, ordered nsh hash rank [] (clients t)) ->
  alwaysGetsTo eqb zero nsh hash ended (ustart clients).
Proof. intros K V eqb zero nsh hash Hn rank n clients Hc OK. now apply (ordered_ends eqb zero nsh Hn hash rank n). Qed.
Print Assumptions C122_all_end.

(** *** C122 needs the order: of two goroutines that lock two shards in opposite
    orders neither need ever get its second lock. *)
Theorem C122_order_needed : forall K V (eqb : K -> K -> bool) (zero : V) nsh hash key1 key2 c1 c2 clients,
  GetShard nsh hash key1 <> GetShard nsh hash key2 ->
  clients 0%nat = CLock key1 (CLock key2 c1) -> clients 1%nat = CLock key2 (CLock key1 c2) ->
  (forall t, (2 <= t)%nat -> clients t = CEnd) ->
  exists tr c, uruns eqb zero nsh hash (ustart clients) tr c /\
    tr = [ULocked 0 (GetShard nsh hash key1); ULocked 1 (GetShard nsh hash key2)] /\
    forall ev c', ~ ustep eqb zero nsh hash c ev c'.
Proof.
  intros K V eqb zero nsh hash key1 key2 c1 c2 clients Hd E0 E1 E2.
  set (s1 := GetShard nsh hash key1) in *. set (s2 := GetShard nsh hash key2) in *.
  do 2 eexists. split; [|split].
  - eapply uruns_cons. { eapply u_lock with (t := 0%nat); [cbn; rewrite E0; reflexivity|]. constructor. reflexivity. }
    eapply uruns_cons. { eapply u_lockwait with (t := 0%nat); [reflexivity|]. constructor; cbn; rewrite fupd_same; reflexivity. }
    eapply uruns_cons. { eapply u_lock with (t := 1%nat); [cbn; rewrite E1; reflexivity|]. constructor. cbn. rewrite !fupd_other by exact Hd. reflexivity. }
    eapply uruns_cons. { eapply u_lockwait with (t := 1%nat); [reflexivity|]. constructor; cbn; rewrite fupd_same; [reflexivity|]. rewrite !fupd_other by exact Hd. reflexivity. }
    apply uruns_refl.
  - reflexivity.
  - intros ev c' S. fold s1 s2 in S.
    remember (fupd (fupd (fupd _ _ _) _ _) 1 _) as th eqn:Eth in S. remember (setMu _ _ _) as sh eqn:Esh in S.
    assert (W1 : writer (mu sh s1) = Some (0%nat, true)).
    { subst sh. cbn. rewrite !(fupd_other _ s2 s1) by congruence. now rewrite !fupd_same. }
    assert (W2 : writer (mu sh s2) = Some (1%nat, true)).
    { subst sh. cbn. now rewrite !fupd_same. }
    assert (T0 : th 0%nat = At (CLock key2 c1)) by (subst th; reflexivity).
    assert (T1 : th 1%nat = At (CLock key1 c2)) by (subst th; reflexivity).
    assert (T2 : forall t, (2 <= t)%nat -> th t = At CEnd).
    { intros t Ht. subst th. rewrite !fupd_other by lia. now apply f_equal, E2. }
    clear Eth Esh.
    assert (TT : forall t, t = 0%nat \/ t = 1%nat \/ (2 <= t)%nat) by (intros; lia).
    inversion S; subst;
      match goal with Et : th ?t = _ |- _ =>
        (destruct (TT t) as [->|[->|Ht]]; [rewrite T0 in Et|rewrite T1 in Et|rewrite (T2 t Ht) in Et]); try discriminate Et
      end;
      match goal with Et : At _ = At _ |- _ => injection Et as <- <- end;
      match goal with T : tstep _ _ _ _ _ |- _ => inversion T; subst end;
      match goal with H : writer _ = None |- _ => fold s1 s2 in H; congruence end.
Qed.
Print Assumptions C122_order_needed.

(** Two shards.  Goroutine 0 goes hand over hand from shard 0 to shard 1;
    goroutine 1 sets a key of shard 1 while it holds shard 0, then clears. *)
Definition crossing (t : nat) : client Z Z :=
  match t with
  | 0%nat => CRLock 4 (CLock 7 (CRUnlock 4 (CUnlock 7 (CDo (OGet 7) (fun _ => CEnd)))))
  | 1%nat => CLock 2 (CDo (OSet 7 70) (fun _ => CUnlock 2 (CDo OClear (fun _ => CEnd))))
  | _ => CEnd
  end.
Example C122_crossing : alwaysGetsTo Z.eqb 0 2 (fun k => k) ended (ustart crossing).
Proof.
  apply (C122_all_end _ _ _ _ _ _ (Nat.lt_0_succ 1) (fun s => s) 2).
  - intros [|[|t]] Ht; [lia|lia|reflexivity].
  - assert (G : GetShard 2 (fun k => k) 4 = 0%nat /\ GetShard 2 (fun k => k) 7 = 1%nat /\ GetShard 2 (fun k => k) 2 = 0%nat)
      by (repeat split; reflexivity).
    destruct G as (G4 & G7 & G2).
    intros [|[|t]]; cbn [crossing ordered keyOf keeps]; rewrite ?G4, ?G7, ?G2; [| |reflexivity].
    + split; [intros ? ? []|]. split; [intros s ex [[= <- <-]|[]]; lia|].
      exists [(1%nat, true)], []. split; [reflexivity|]. exists [], []. split; [reflexivity|].
      split; [intros ? ? []|]. auto.
    + split; [intros ? ? []|]. split; [intros s ex [[= <- <-]|[]]; lia|]. split; [exact I|]. intros _.
      exists [], []. cbn. auto.
Qed.
