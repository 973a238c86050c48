(** C120: locking a shard from outside. *)
From Coq Require Import Permutation.
From Verif Require Import Base GoMap Sharded_Model Sharded_Locks Sharded_Outer_Model Sharded_Outer_Spec Sharded_Outer_Proofs.
Local Open Scope list_scope.
Local Open Scope Z_scope.

Section Outer.
  Context {K V : Type} (eqb : K -> K -> bool) (zero : V) (nsh : nat) (hash : K -> Z).
  Notation shardOf := (GetShard nsh hash).
  Notation uruns := (uruns eqb zero nsh hash).
  Notation ustep := (ustep eqb zero nsh hash).

  (** *** C120 for calls by key: let goroutines do anything but Clear, and let
      [c1] be any moment.  As long as someone then stays inside RLock or Lock of
      the shard of a key, every call for that key that is begun and returns
      answers as if the map were as at [c1]; inside Lock none returns. *)
  Theorem C120_keys_partial : forall clients, (forall t, noClear (clients t)) ->
    forall tr1 c1 tr2 c2, uruns (ustart clients) tr1 c1 -> uruns c1 tr2 c2 ->
    forall holder t o key r, keyOf o = Some key -> callIn tr2 t o r ->
    (readSection holder (shardOf key) tr1 tr2 ->
     keyAnswer zero (fun key => gget eqb (items (umem c1) (shardOf key)) key) o r) /\
    ~ writeSection holder (shardOf key) tr1 tr2.
  Proof.
    intros clients NC tr1 c1 tr2 c2 U1 U2 holder t o key r Ek C.
    pose proof (section_answers eqb zero nsh hash _ _ _ _ _ _ _ _ NC U1 U2 C) as A.
    split.
    - intros RS. set (RF := fun s => exists t, readSection t s tr1 tr2) in *. assert (HF : RF (shardOf key)) by (now exists holder).
      destruct o; cbn in Ek; try discriminate; injection Ek as ->; cbn in A |- *; unfold Sharded_Outer_Proofs.F in A; try tauto.
      + destruct A as (_ & m & Hm & A). rewrite (Hm (or_introl HF)) in A. unfold get2 in A. now destruct (gget eqb _ key); cbn in A.
      + destruct A as (_ & m & Hm & A). rewrite (Hm (or_introl HF)) in A. unfold get2 in A. now destruct (gget eqb _ key); cbn in A.
      + destruct A as (_ & m & Hm & A). rewrite (Hm (or_introl HF)) in A. exact A.
      + destruct A as (_ & m & Hm & A). rewrite (Hm (or_introl HF)) in A. unfold get2 in A. destruct (gget eqb _ key); cbn in A; [eauto|].
        exfalso. apply (proj1 A). now left.
      + destruct A as (_ & m & Hm & A). rewrite (Hm (or_introl HF)) in A. unfold get2 in A. destruct (gget eqb _ key); cbn in A; [eauto|].
        exfalso. apply (proj1 A). now left.
    - intros WS. set (WF := fun s => exists t, writeSection t s tr1 tr2) in *. assert (HF : WF (shardOf key)) by (now exists holder).
      destruct o; cbn in Ek; try discriminate; injection Ek as ->; cbn in A; unfold Sharded_Outer_Proofs.F in A; tauto.
  Qed.

  (** *** C120 for calls over the whole map: as long as every shard stays inside
      someone's RLock, Len, Empty, Keys, Values and Entries are those of the map
      as at [c1]. *)
  Theorem C120_whole_partial : forall clients, (forall t, noClear (clients t)) ->
    forall tr1 c1 tr2 c2, uruns (ustart clients) tr1 c1 -> uruns c1 tr2 c2 ->
    (forall s, (s < nsh)%nat -> exists holder, readSection holder s tr1 tr2) ->
    forall t o r, callIn tr2 t o r -> mapAnswer (flat_map (items (umem c1)) (seq 0 nsh)) o r.
  Proof.
    intros clients NC tr1 c1 tr2 c2 U1 U2 H t o r C.
    pose proof (section_answers eqb zero nsh hash _ _ _ _ _ _ _ _ NC U1 U2 C) as A.
    set (RF := fun s => exists t, readSection t s tr1 tr2) in *. set (WF := fun s => exists t, writeSection t s tr1 tr2) in *.
    assert (HF : forall s, In s (allShards nsh) -> F RF WF s).
    { intros s Hs. apply in_seq in Hs. left. apply H. lia. }
    destruct o; cbn [progOf mapAnswer] in A |- *; try exact I.
    - apply len_answers in A; [|assumption]. rewrite A. reflexivity.
    - apply empty_answers in A; assumption.
    - apply (readOnly_answers RF WF _ fst) in A; assumption.
    - apply (readOnly_answers RF WF _ snd) in A; assumption.
    - assert (A' : answers RF WF (items (umem c1)) (readOnlyP (allShards nsh) (fun x l => x ++ map (fun e => e) l) REntries []) r).
      { clear -A. revert A. generalize (@nil (K * V)). induction (allShards nsh) as [|s ss IH]; intros acc A; cbn in A |- *; [assumption|].
        destruct A as (A1 & l & A2 & A3). split; [assumption|]. exists l. split; [assumption|]. rewrite map_id. auto. }
      apply (readOnly_answers RF WF _ (fun e => e)) in A'; [|assumption]. destruct A' as (l & Pl & ->). rewrite map_id. eauto.
  Qed.

  (** *** C120 is refuted for calls of the holder itself: after RLock a lookup in
      the same shard never returns once another goroutine waits to write there. *)
  Theorem C120_nested_refuted : forall key v clients,
    clients 0%nat = CRLock key (CDo (OTryGet key) (fun _ => CRUnlock key CEnd)) ->
    clients 1%nat = CDo (OSet key v) (fun _ => CEnd) -> (forall t, (2 <= t)%nat -> clients t = CEnd) ->
    exists tr c, uruns (ustart clients) tr c /\ In (URLocked 0 (shardOf key)) tr /\ In (UInv 0 (OTryGet key)) tr /\
      (forall r, ~ In (URet 0 (OTryGet key) r) tr) /\ forall ev c', ~ ustep c ev c'.
  Proof.
    intros key v clients E0 E1 E2. set (s := shardOf key). do 2 eexists. split; [|split; [|split; [|split]]].
    - eapply uruns_cons. { eapply u_rlock with (t := 0%nat); [cbn; rewrite E0; reflexivity|]. constructor. reflexivity. }
      eapply uruns_cons. { eapply u_inv with (t := 1%nat). cbn. rewrite E1. reflexivity. }
      eapply uruns_cons. { eapply u_tau with (t := 1%nat); [reflexivity|]. constructor. cbn. rewrite fupd_same. reflexivity. }
      eapply uruns_cons. { eapply u_inv with (t := 0%nat). cbn. reflexivity. }
      apply uruns_refl.
    - cbn. auto.
    - cbn. auto.
    - intros r. cbn. intuition discriminate.
    - intros ev c' S.
      remember (fupd (fupd _ 1 _) 0 _) as th eqn:Eth in S. remember (setMu _ _ _) as sh eqn:Esh in S.
      assert (W : mu sh s = {| writer := Some (1%nat, false); readers := [0%nat] |}).
      { subst sh. cbn. now rewrite !fupd_same. }
      assert (T0 : th 0%nat = In_ (OTryGet key) (progOf eqb zero nsh hash (OTryGet key)) (fun _ => CRUnlock key CEnd)) by (subst th; reflexivity).
      assert (T1 : exists k, th 1%nat = In_ (OSet key v) (LockWait s k) (fun _ => CEnd)) by (subst th; eexists; reflexivity).
      destruct T1 as (k1 & T1).
      assert (T2 : forall t, (2 <= t)%nat -> th t = At CEnd).
      { intros t Ht. subst th. rewrite !fupd_other by lia. now rewrite E2. }
      clear Eth Esh.
      assert (TT : forall t, t = 0%nat \/ t = 1%nat \/ (2 <= t)%nat) by (intros; lia).
      inversion S; subst;
        match goal with Et : th ?t = _ |- _ =>
          (destruct (TT t) as [->|[->|Ht]]; [rewrite T0 in Et|rewrite T1 in Et|rewrite (T2 t Ht) in Et]); try discriminate Et
        end.
      + match goal with Et : In_ _ _ _ = In_ _ _ _ |- _ => injection Et as <- <- <- end.
        match goal with T : tstep _ _ _ _ _ |- _ => inversion T; subst end.
        match goal with H : writer (mu sh _) = None |- _ => fold s in H; rewrite W in H; discriminate H end.
      + match goal with Et : In_ _ _ _ = In_ _ _ _ |- _ => injection Et as <- <- <- end.
        match goal with T : tstep _ _ _ _ _ |- _ => inversion T; subst end. rewrite W in *. discriminate.
  Qed.
End Outer.

(** *** C120 is refuted with Clear: it changes a shard that another goroutine
    holds (here with one shard). *)
Theorem C120_clear_refuted : forall K V (eqb : K -> K -> bool) (zero : V) hash key v clients, eqb key key = true ->
  clients 0%nat = CDo (OSet key v) (fun _ => CRLock key (CDo (OHas key) (fun _ => CDo (OHas key) (fun _ => CRUnlock key CEnd)))) ->
  clients 1%nat = CDo OClear (fun _ => CEnd) ->
  exists tr1 c1 tr2 c2, uruns eqb zero 1 hash (ustart clients) tr1 c1 /\ uruns eqb zero 1 hash c1 tr2 c2 /\
    readSection 0 (GetShard 1 hash key) tr1 tr2 /\
    callIn tr2 0 (OHas key) (RBool true) /\ callIn tr2 0 (OHas key) (RBool false).
Proof.
  intros K V eqb zero hash key v clients Ek E0 E1.
  do 4 eexists. split; [|split; [|split; [|split]]].
  - eapply uruns_cons. { eapply u_inv with (t := 0%nat). cbn. rewrite E0. reflexivity. }
    eapply uruns_cons. { eapply u_tau with (t := 0%nat); [reflexivity|]. constructor. reflexivity. }
    eapply uruns_cons. { eapply u_tau with (t := 0%nat); [reflexivity|]. constructor; reflexivity. }
    eapply uruns_cons. { eapply u_tau with (t := 0%nat); [reflexivity|]. constructor. }
    eapply uruns_cons. { eapply u_tau with (t := 0%nat); [reflexivity|]. constructor. reflexivity. }
    eapply uruns_cons. { eapply u_ret with (t := 0%nat). reflexivity. }
    eapply uruns_cons. { eapply u_rlock with (t := 0%nat); [reflexivity|]. constructor. reflexivity. }
    apply uruns_refl.
  - eapply uruns_cons. { eapply u_inv with (t := 1%nat). cbn. rewrite E1. reflexivity. }
    eapply uruns_cons. { eapply u_inv with (t := 0%nat). reflexivity. }
    eapply uruns_cons. { eapply u_tau with (t := 0%nat); [reflexivity|]. constructor. reflexivity. }
    eapply uruns_cons. { eapply u_tau with (t := 0%nat); [reflexivity|]. constructor. }
    eapply uruns_cons. { eapply u_tau with (t := 0%nat); [reflexivity|]. constructor. left. reflexivity. }
    eapply uruns_cons. { eapply u_ret with (t := 0%nat). reflexivity. }
    eapply uruns_cons. { eapply u_tau with (t := 1%nat); [reflexivity|]. constructor. reflexivity. }
    eapply uruns_cons. { eapply u_tau with (t := 1%nat); [reflexivity|]. constructor. }
    eapply uruns_cons. { eapply u_inv with (t := 0%nat). reflexivity. }
    eapply uruns_cons. { eapply u_tau with (t := 0%nat); [reflexivity|]. constructor. reflexivity. }
    eapply uruns_cons. { eapply u_tau with (t := 0%nat); [reflexivity|]. constructor. }
    eapply uruns_cons. { eapply u_tau with (t := 0%nat); [reflexivity|]. constructor. left. reflexivity. }
    eapply uruns_cons. { eapply u_ret with (t := 0%nat). reflexivity. }
    apply uruns_refl.
  - exists [UInv 0 (OSet key v); URet 0 (OSet key v) RUnit], []. split; [reflexivity|]. cbn. intuition discriminate.
  - exists [UInv 1 OClear], [], [UInv 0 (OHas key); URet 0 (OHas key) (RBool false)]. split; [|cbn; tauto]. cbn. unfold has. cbn.
    rewrite ?Ek. reflexivity.
  - exists [UInv 1 OClear; UInv 0 (OHas key); URet 0 (OHas key) (RBool true)], [], []. split; [|cbn; tauto]. cbn. unfold has. cbn.
    rewrite ?Ek. reflexivity.
Qed.

(** Non-vacuity: goroutine 0 sets 5 to 7 and locks the only shard for reading;
    goroutine 2 asks for Len and for 5, then goroutine 1 begins to set 5 to 8. *)
Definition clients120 (t : nat) : client Z Z :=
  match t with
  | 0%nat => CDo (OSet 5 7) (fun _ => CRLock 5 CEnd)
  | 1%nat => CDo (OSet 5 8) (fun _ => CEnd)
  | 2%nat => CDo OLen (fun _ => CDo (OTryGet 5) (fun _ => CEnd))
  | _ => CEnd
  end.
Example C120_case : (forall t, noClear (clients120 t)) /\ exists c1 c2,
  let tr1 := [UInv 0 (OSet 5 7); URet 0 (OSet 5 7) RUnit; URLocked 0 0] in
  let tr2 := [UInv 2 OLen; URet 2 OLen (RInt 1); UInv 2 (OTryGet 5); URet 2 (OTryGet 5) (ROpt 7 true); UInv 1 (OSet 5 8)] in
  uruns Z.eqb 0 1 (fun k => k) (ustart clients120) tr1 c1 /\ uruns Z.eqb 0 1 (fun k => k) c1 tr2 c2 /\
  readSection 0 (GetShard 1 (fun k => k) 5) tr1 tr2 /\ callIn tr2 2 OLen (RInt 1) /\ callIn tr2 2 (OTryGet 5) (ROpt 7 true).
Proof.
  split. { intros [|[|[|]]]; cbn; auto. }
  do 2 eexists. cbv zeta. split; [|split; [|split; [|split]]].
  - change [UInv 0%nat (OSet 5 7); URet 0%nat (OSet 5 7) RUnit; URLocked 0%nat 0%nat]
      with ([UInv 0%nat (OSet 5 7)] ++ [] ++ [] ++ [] ++ [] ++ [URet 0%nat (OSet 5 7) RUnit] ++ [@URLocked Z Z 0%nat (GetShard 1 (fun k : Z => k) 5)] ++ []).
    eapply uruns_cons. { eapply u_inv with (t := 0%nat). reflexivity. }
    eapply uruns_cons. { eapply u_tau with (t := 0%nat); [reflexivity|]. constructor. reflexivity. }
    eapply uruns_cons. { eapply u_tau with (t := 0%nat); [reflexivity|]. constructor; reflexivity. }
    eapply uruns_cons. { eapply u_tau with (t := 0%nat); [reflexivity|]. constructor. }
    eapply uruns_cons. { eapply u_tau with (t := 0%nat); [reflexivity|]. constructor. reflexivity. }
    eapply uruns_cons. { eapply u_ret with (t := 0%nat). reflexivity. }
    eapply uruns_cons. { eapply (u_rlock Z.eqb 0 1 (fun k => k) 0%nat 5); [reflexivity|]. constructor. reflexivity. }
    apply uruns_refl.
  - change [UInv 2%nat OLen; URet 2%nat OLen (RInt 1); UInv 2%nat (OTryGet 5); URet 2%nat (OTryGet 5) (ROpt 7 true); UInv 1%nat (OSet 5 8)]
      with ([@UInv Z Z 2%nat OLen] ++ [] ++ [] ++ [] ++ [URet 2%nat OLen (RInt 1)] ++ [UInv 2%nat (OTryGet 5)] ++ [] ++ [] ++ [] ++
            [URet 2%nat (OTryGet 5) (ROpt 7 true)] ++ [UInv 1%nat (OSet 5 8)] ++ [] ++ []).
    eapply uruns_cons. { eapply u_inv with (t := 2%nat). reflexivity. }
    eapply uruns_cons. { eapply u_tau with (t := 2%nat); [reflexivity|]. constructor. reflexivity. }
    eapply uruns_cons. { eapply u_tau with (t := 2%nat); [reflexivity|]. constructor. }
    eapply uruns_cons. { eapply u_tau with (t := 2%nat); [reflexivity|]. constructor. left. reflexivity. }
    eapply uruns_cons. { eapply u_ret with (t := 2%nat). reflexivity. }
    eapply uruns_cons. { eapply u_inv with (t := 2%nat). reflexivity. }
    eapply uruns_cons. { eapply u_tau with (t := 2%nat); [reflexivity|]. constructor. reflexivity. }
    eapply uruns_cons. { eapply u_tau with (t := 2%nat); [reflexivity|]. constructor. }
    eapply uruns_cons. { eapply u_tau with (t := 2%nat); [reflexivity|]. constructor. left. reflexivity. }
    eapply uruns_cons. { eapply u_ret with (t := 2%nat). reflexivity. }
    eapply uruns_cons. { eapply u_inv with (t := 1%nat). reflexivity. }
    eapply uruns_cons. { eapply u_tau with (t := 1%nat); [reflexivity|]. constructor. reflexivity. }
    apply uruns_refl.
  - exists [UInv 0%nat (OSet 5 7); URet 0%nat (OSet 5 7) RUnit], []. split; [reflexivity|]. cbn. intuition discriminate.
  - exists [], [], [UInv 2%nat (OTryGet 5); URet 2%nat (OTryGet 5) (ROpt 7 true); UInv 1%nat (OSet 5 8)]. split; [reflexivity|]. cbn. tauto.
  - exists [UInv 2%nat OLen; URet 2%nat OLen (RInt 1)], [], [UInv 1%nat (OSet 5 8)]. split; [reflexivity|]. cbn. tauto.
Qed.

Print Assumptions C120_keys_partial.
Print Assumptions C120_whole_partial.
Print Assumptions C120_nested_refuted.
Print Assumptions C120_clear_refuted.
