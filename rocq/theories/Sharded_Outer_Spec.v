(** What it means that the lock of a shard protects what it should. *)
From Coq Require Import Permutation.
From Verif Require Import Base GoMap Sharded_Model Sharded_Outer_Model.

Section OuterSpec.
  Context {K V : Type}.
  Notation trace := (list (uevent K V)).

  (** At the end of [tr1] goroutine [t] is inside a section that it began with
      RLock (or Lock) of shard [s] and does not leave in [tr2]. *)
  Definition readSection (t s : nat) (tr1 tr2 : trace) : Prop :=
    exists a b, tr1 = a ++ URLocked t s :: b /\ ~ In (URUnlocked t s) (b ++ tr2).
  Definition writeSection (t s : nat) (tr1 tr2 : trace) : Prop :=
    exists a b, tr1 = a ++ ULocked t s :: b /\ ~ In (UUnlocked t s) (b ++ tr2).

  (** In [tr] goroutine [t] calls [o] and gets [r]. *)
  Definition callIn (tr : trace) (t : nat) (o : op K V) (r : res K V) : Prop :=
    exists a b c, tr = a ++ UInv t o :: b ++ URet t o r :: c /\
      forall o' r', ~ In (UInv t o') b /\ ~ In (URet t o' r') b.

  (** [r] is what the call [o] of a key gives for a map that holds [m key]
      under [key]; the calls that would have to change it give nothing. *)
  Definition keyAnswer (zero : V) (m : K -> option V) (o : op K V) (r : res K V) : Prop :=
    match o with
    | OTryGet key => r = match m key with Some v => ROpt v true | None => ROpt zero false end
    | OGet key => r = match m key with Some v => RVal v | None => RPanic end
    | OHas key => r = RBool (match m key with Some _ => true | None => false end)
    | OGetOrSetDefault key _ | OGetOrSetFactory key _ => exists v, m key = Some v /\ r = ROpt v true
    | _ => False
    end.

  Definition keyOf (o : op K V) : option K :=
    match o with
    | OSet key _ | OTrySet key _ | OGet key | OTryGet key | OHas key | ODelete key
    | OGetOrSetDefault key _ | OGetOrSetFactory key _ => Some key
    | _ => None
    end.

  (** [r] is what a call over the whole map gives for a map with the entries [l]. *)
  Definition mapAnswer (l : list (K * V)) (o : op K V) (r : res K V) : Prop :=
    match o with
    | OLen => r = RInt (zlen l)
    | OEmpty => r = RBool (match l with [] => true | _ => false end)
    | OKeys => exists l', Permutation l' l /\ r = RKeys (map fst l')
    | OValues => exists l', Permutation l' l /\ r = RVals (map snd l')
    | OEntries => exists l', Permutation l' l /\ r = REntries l'
    | _ => True
    end.

  Fixpoint noClear (c : client K V) : Prop :=
    match c with
    | CEnd => True
    | CDo OClear _ => False
    | CDo _ k => forall r, noClear (k r)
    | CRLock _ k | CRUnlock _ k | CLock _ k | CUnlock _ k => noClear k
    end.
End OuterSpec.
