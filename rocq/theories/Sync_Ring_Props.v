(** C134: a ring in a Synchronized is a queue for goroutines. *)
From Coq Require Import Permutation.
From Verif Require Import Base Arr Exn Lin Lin_Proofs XRing_Spec XRing_Model XRing_Proofs XRing_Props Sync_Model Sync_Spec Sync_Proofs
  Lin_Live Sync_Multi_Model Sync_Ring_Model Sync_Ring_Spec Sync_Ring_Proofs.
Local Open Scope list_scope.

(** *** Every execution of goroutines that use the ring under the lock is one of
    a list deque whose calls took effect one at a time, each between its call and
    its return, panic for panic; and when all are outside, the ring answers from
    then on like the list that these calls left. *)
Theorem C134_deque : forall T (zero : T) r0 l0, constructed zero r0 l0 -> forall tr c, execution r0 tr c ->
  (forall t o, In (EInv t o) tr -> exists u, proper u /\ o = used zero u) ->
  exists h p, linearized tr (map (fun e => (used zero (fst e), snd e)) h) p /\
    map snd h = fst (runOps dequeStep (map (fun e => method (fst e)) h) l0) /\
    ((forall t, thread c t = Idle) ->
      Permutation (map (fun e => (used zero (fst e), snd e)) h) (returned tr) /\
      forall ops, fst (runOps (ringStep zero) ops (Value (shared c))) =
        fst (runOps dequeStep ops (snd (runOps dequeStep (map (fun e => method (fst e)) h) l0)))).
Proof.
  intros T zero r0 l0 HC tr c HE HF. destruct (constructed_rep zero r0 l0 HC) as [HR _].
  destruct (shared_deque zero proper (fun u H => H) r0 l0 tr c HR HE HF) as (h & p & HL & _ & Eh & HI).
  exists h, p. split; [exact HL|]. split; [exact Eh|]. intros HA. destruct (HI HA) as [HP HV]. split; [exact HP|].
  intros ops. destruct (runOps_ok zero ops _ _ HV) as (r' & E & _). now rewrite E.
Qed.
Print Assumptions C134_deque.

(** *** The methods called under RLock indeed only look: they leave the ring and
    its buffer as they are, whatever ring it is and whether they panic or not. *)
Theorem C134_looking : forall T (zero : T) o r, looks o = true -> snd (ringStep zero o r) = r.
Proof.
  assert (HB : forall A B (m : X (ring A) B) (f : B -> X (ring A) (ringRes A)) r,
    snd (m r) = r -> (forall b r, snd (f b r) = r) -> snd (xbind m f r) = r).
  { intros A B m f r Hm Hf. unfold xbind. destruct (m r) as [[b|e|] r'] eqn:E; cbn in *; subst; auto. }
  intros T zero o r. assert (HG : forall i (r : ring T), snd (getBuf i r) = r).
  { intros i q. unfold getBuf, xbind, xget. destruct (zget (buf q) i); reflexivity. }
  destruct o; try discriminate; intros _; cbn [ringStep]; try reflexivity; apply HB; try reflexivity.
  - unfold First, xbind, xget. destruct (len r =? 0)%Z; [reflexivity|apply HG].
  - unfold Last, xbind, xget. destruct (len r =? 0)%Z; [reflexivity|apply HG].
  - unfold At, AtRef, xbind, xget. destruct ((i <? 0) || (len r <=? i))%Z; [reflexivity|apply HG].
Qed.
Print Assumptions C134_looking.

(** *** Nothing is lost, doubled or reordered: when all are outside, the values
    popped, in the order of the Pops, and then those that are still in the ring
    are the values that were in it at first and then those pushed, in the order
    of the Pushes. *)
Theorem C134_queue : forall T (zero : T) r0 l0, constructed zero r0 l0 -> forall tr c, execution r0 tr c ->
  (forall t o, In (EInv t o) tr -> exists u, queueing u /\ o = used zero u) ->
  (forall t, thread c t = Idle) ->
  exists h p rest, linearized tr (map (fun e => (used zero (fst e), snd e)) h) p /\
    Permutation (map (fun e => (used zero (fst e), snd e)) h) (returned tr) /\
    popped h ++ rest = l0 ++ pushed h /\
    forall ops, fst (runOps (ringStep zero) ops (Value (shared c))) = fst (runOps dequeStep ops rest).
Proof.
  intros T zero r0 l0 HC tr c HE HF HA. destruct (constructed_rep zero r0 l0 HC) as [HR _].
  assert (Hpp : forall v : ringUse T, queueing v -> proper v) by (intros v [->|[w ->]]; exact I).
  destruct (shared_deque zero queueing Hpp r0 l0 tr c HR HE HF) as (h & p & HL & HQ & Eh & HI). destruct (HI HA) as [HP HV].
  exists h, p, (snd (runOps dequeStep (map (fun e => method (fst e)) h) l0)). split; [exact HL|]. split; [exact HP|].
  split; [now apply queue_order|]. intros ops. destruct (runOps_ok zero ops _ _ HV) as (r' & E & _). now rewrite E.
Qed.
Print Assumptions C134_queue.

(** *** First in, first out, across goroutines: if Push(x) returned before
    Push(y) was called for the first time, and a Pop returned y, then a Pop
    returned x. *)
Theorem C134_fifo : forall T (zero : T) r0 l0, constructed zero r0 l0 -> forall tr1 tr2 tr3 c t u x y r,
  let tr := tr1 ++ ERet t (used zero (push x)) r :: tr2 ++ EInv u (used zero (push y)) :: tr3 in
  execution r0 tr c -> (forall t, thread c t = Idle) ->
  (forall t o, In (EInv t o) tr -> exists v, queueing v /\ o = used zero v) ->
  ~ In y l0 -> (forall w, ~ In (EInv w (used zero (push y))) (tr1 ++ ERet t (used zero (push x)) r :: tr2)) ->
  In (used zero pop, Ok (RVal y)) (returned tr) -> In (used zero pop, Ok (RVal x)) (returned tr).
Proof.
  intros T zero r0 l0 HC tr1 tr2 tr3 c t u x y r. destruct (constructed_rep zero r0 l0 HC) as [HR _]. exact (fifo zero r0 l0 tr1 tr2 tr3 c t u x y r HR).
Qed.
Print Assumptions C134_fifo.

(** Two producers and a consumer, who pops while the second producer waits for the
    lock; the hypotheses of the three theorems above hold. *)
Local Ltac go := cbn; first [apply i_read|apply i_write|apply i_lock; reflexivity|apply i_lockwait; reflexivity
  |eapply i_unlock; reflexivity|apply i_rlock; reflexivity|apply i_runlock; cbn; tauto].
Local Ltac run t H := eapply runs_snoc in H; [|eapply (st_run _ _ _ _ t); [reflexivity|go]].
Local Ltac invoke t o H := eapply runs_snoc in H; [|eapply (st_inv _ _ _ _ t o); reflexivity].
Local Ltac return_ t H := eapply runs_snoc in H; [|eapply (st_ret _ _ _ _ t); reflexivity].
Example C134_case : exists tr1 tr2 tr3 c r,
  let tr := tr1 ++ ERet 0%nat (used 0%Z (push 7%Z)) r :: tr2 ++ EInv 1%nat (used 0%Z (push 8%Z)) :: tr3 in
  execution New tr c /\ (forall t, thread c t = Idle) /\
  (forall t o, In (EInv t o) tr -> exists v, queueing v /\ proper v /\ o = used 0%Z v) /\
  (forall w, ~ In (EInv w (used 0%Z (push 8%Z))) (tr1 ++ ERet 0%nat (used 0%Z (push 7%Z)) r :: tr2)) /\
  In (used 0%Z pop, Ok (RVal 8%Z)) (returned tr).
Proof.
  set (a := used 0%Z (push 7%Z)). set (b := used 0%Z (push 8%Z)). set (q := used 0%Z (@pop Z)).
  assert (X : execution (R := outcome (ringRes Z)) (@New Z) [] (start (fresh New))) by apply runs_nil.
  unfold execution in X. invoke 0%nat a X. do 5 run 0%nat X. return_ 0%nat X.
  invoke 2%nat q X. do 2 run 2%nat X. invoke 1%nat b X. do 3 run 2%nat X. return_ 2%nat X.
  do 5 run 1%nat X. return_ 1%nat X. invoke 0%nat q X. do 5 run 0%nat X. return_ 0%nat X.
  exists [EInv 0%nat a], [EInv 2%nat q], [ERet 2%nat q (Ok (RVal 7%Z)); ERet 1%nat b (Ok RUnit); EInv 0%nat q; ERet 0%nat q (Ok (RVal 8%Z))]. 
  eexists _, (Ok RUnit). split; [exact X|]. split.
  { intros t. do 3 (destruct t; [reflexivity|]). reflexivity. }
  split; [|split].
  - clear X. intros t o H.
    assert (HD : o = a \/ o = b \/ o = q)
      by (cbn [app In] in H; decompose [or] H; try contradiction; try discriminate;
          match goal with E : EInv _ _ = EInv _ _ |- _ => apply (f_equal (fun e => match e with EInv _ o => o | ERet _ o _ => o end)) in E; cbn iota in E; rewrite <- E; auto end).
    destruct HD as [-> | [-> | -> ]]; [exists (push 7%Z)|exists (push 8%Z)|exists pop]; (split; [first [now left|right; eexists; reflexivity]|split; [exact I|reflexivity]]).
  - clear X. intros w H. assert (HD : forall e, In e ([EInv 0%nat a] ++ ERet 0%nat a (Ok (@RUnit Z)) :: [EInv 2%nat q]) -> forall u o, e = EInv u o -> o = a \/ o = q).
    { intros e He u o ->. destruct He as [He|[He|[He|[]]]]; try discriminate; apply (f_equal (fun e => match e with EInv _ o => o | ERet _ o _ => o end)) in He; cbn iota in He; rewrite <- He; auto. }
    pose proof (HD _ H w b eq_refl) as E.
    destruct E as [E|E]; (apply used_inj in E; [discriminate|first [now left|right; eexists; reflexivity]..]).
  - cbn. tauto.
Qed.

(** *** defer is needed: Pop on an empty ring panics before the Unlock, and from
    then on nobody gets the lock. *)
Theorem C134_defer_needed : exists tr (c : mstate (fun k => k = popNoDefer 0%Z)),
  mexecution (fun _ => New) tr c /\ (exists o msg, In (ERet 0%nat o (Panic msg)) tr) /\
  thread c 0%nat = Idle /\ thread c 1%nat <> Idle /\ forall c', ~ goesOn mcode mover minstr c c'.
Proof.
  set (Q := fun k => k = popNoDefer 0%Z). set (a := exist Q (popNoDefer 0%Z) eq_refl).
  assert (X : mexecution (P := Q) (fun _ => New) [] (start (mfresh (fun _ => New)))) by apply runs_nil.
  unfold mexecution in X. invoke 0%nat a X.
  do 4 (eapply runs_snoc in X; [|eapply (st_run _ _ _ _ 0%nat); [reflexivity|cbn; first [apply m_read|apply m_write|apply m_lock; reflexivity|apply m_lockwait; reflexivity]]]).
  return_ 0%nat X. invoke 1%nat a X.
  eexists _, _. split; [exact X|]. split; [eexists a, _; cbn; right; left; reflexivity|]. split; [reflexivity|]. split; [discriminate|].
  intros c' (ev & HS & HE). inversion HS as [c1 t o E|c1 t o k k' sh' E HI|c1 t o k r E HR]; subst.
  - apply (HE t o). now left.
  - cbn [thread] in E. unfold put in E. cbn [shared] in HI. destruct (Nat.eqb 1 t) eqn:E1.
    + injection E as <- <-. cbn in HI. inversion HI; subst. match goal with H : writer _ = None |- _ => cbn in H; discriminate end.
    + destruct (Nat.eqb 0 t) eqn:E0; discriminate.
  - cbn [thread] in E. unfold put in E. destruct (Nat.eqb 1 t) eqn:E1; [injection E as <- <-; discriminate|].
    destruct (Nat.eqb 0 t) eqn:E0; discriminate.
Qed.
Print Assumptions C134_defer_needed.
