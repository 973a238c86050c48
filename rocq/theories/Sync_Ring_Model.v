(** A xring.Ring in a Synchronized or RWSynchronized (xsync/synchronized.go,
    ds/xring/ring.go): the queue that goroutines share. *)
From Verif Require Import Base Lin Exn XRing_Spec XRing_Model Sync_Model Sync_Multi_Model.
Local Open Scope list_scope.

Section Model.
  Context {T : Type} (zero : T).

  (** One use of the shared ring, with one of the methods of the ring (ds/xring/ring.go):
      - [WithLock o]: q := s.Lock(); defer s.Unlock(); return q.Method(args)
      - [WithRLock o]: q := s.RLock(); defer s.RUnlock(); return q.Method(args) *)
  Inductive ringUse : Type := WithLock (o : ringOp T) | WithRLock (o : ringOp T).

  (** synchronized.go:13-20 and 28-44 around XRing_Model.ringStep.  The ring and
      its buffer are one value: the buffer is not reachable from outside the ring.
      A panic of the method passes through the deferred Unlock to the caller: it
      is one of the results. *)
  Definition used (u : ringUse) : op (ring T) (outcome (ringRes T)) :=
    match u with
    | WithLock o => Exclusive (ReadValue (fun q => let '(x, q') := ringStep zero o q in WriteValue q' (Finish x)))
    | WithRLock o => Shared (LookAt (fun q => Seen (fst (ringStep zero o q))))
    end.

  (** Without defer: q := s.Lock(); x := q.Pop(); s.Unlock(); return x.  The
      panic of Pop (ds/xring/ring.go:82-89) skips the Unlock. *)
  Definition popNoDefer : client (ring T) (outcome (ringRes T)) :=
    CLock 0 (CRead 0 (fun q =>
      match ringStep zero OPop q with
      | (Ok x, q') => CWrite 0 q' (CUnlock 0 (CRet (Ok x)))
      | (x, q') => CWrite 0 q' (CRet x)
      end)).
End Model.
Arguments ringUse : clear implicits.
