(** Models of secrand/pool.go, secrand/secrand.go, xrand/pool.go, xrand/xrand.go
    and xsync/pool.go: generators drawn from a sync.Pool, and the master
    generator that seeds them. *)
From Coq Require Import Permutation.
From Verif Require Import Base Exn Lin Secrand_Model Sync_Model.
Local Open Scope string_scope.
Local Open Scope list_scope.

(** ** The package-level functions *)

(** secrand/secrand.go:5-137 and xrand/xrand.go:5-137: every function is
      rng := Get(); defer Put(rng); return rng.F(...)
    Of [F] is kept that it draws from [rng] a number of times and that, in
    Shuffle, it calls back the user's code, which may call the package again. *)
Inductive act : Type := Draw | Call (b : list act).
(** One running call: before Get returns, or with its generator and the rest of
    its body. *)
Inductive frame : Type := FGet (b : list act) | FHold (g : nat) (b : list act).

(** secrand/pool.go:8-12 and xrand/pool.go:8-11: the generators in the pool; the
    number of generators that New made so far, which names the next one. *)
Record pool : Type := { contents : list nat; made : nat }.

(** Instructions; a goroutine is the stack of its running calls.
    sync.Pool.Get takes any element, or asks New; the garbage collector may
    empty the pool in part at any time, which matters only when Get is called
    and is modelled there. *)
Inductive poolStep (t : nat) : list frame -> pool -> list frame -> pool -> Prop :=
| p_get b fs p g kept dropped : Permutation (contents p) (g :: kept ++ dropped) ->
    poolStep t (FGet b :: fs) p (FHold g b :: fs) {| contents := kept; made := made p |}
| p_new b fs p kept dropped : Permutation (contents p) (kept ++ dropped) ->
    poolStep t (FGet b :: fs) p (FHold (made p) b :: fs) {| contents := kept; made := S (made p) |}
| p_draw g b fs p : poolStep t (FHold g (Draw :: b) :: fs) p (FHold g b :: fs) p
| p_call g b' b fs p : poolStep t (FHold g (Call b' :: b) :: fs) p (FGet b' :: FHold g b :: fs) p
| p_panic g b fs p : (* the rest of the body is skipped, the deferred Put is not; the caller may panic or recover *)
    poolStep t (FHold g b :: fs) p (FHold g [] :: fs) p
| p_put g fs p : poolStep t (FHold g [] :: fs) p fs {| contents := g :: contents p; made := made p |}.

Definition enter (b : list act) : list frame := [FGet b].
Definition left (fs : list frame) : option unit := match fs with [] => Some tt | _ => None end.
Definition emptyPool : pool := {| contents := []; made := 0 |}.
Definition pooling : list (event (list act) unit) -> config (list act) pool (list frame) -> Prop :=
  runs enter left poolStep emptyPool.

(** ** The master generators *)

(** secrand/rng.go:64-71 NewRNG: the lock, the 32 bytes, the new generator.
    Read of the master is one read and one write of its state here; under the
    lock any number of steps would do (Sync_Props.C69_atomic).  If it panics, the
    deferred Unlock still runs. *)
Definition newRNG (ks : Z -> list Z -> list Z -> nat -> Z) (defaultNonce : list Z) : op RNG (outcome RNG) :=
  Exclusive (ReadValue (fun master =>
    match Secrand_Model.Read ks 2 (zeros KeySize) master with
    | (Ok x, master') => WriteValue master' (Finish (NewRNGFromSeed ks defaultNonce (snd x)))
    | (Panic e, master') => WriteValue master' (Finish (Panic e))
    | (Diverge, master') => WriteValue master' (Finish Diverge)
    end)).

(** xrand/pool.go:15-19 newRng, for any source of numbers and any generator made
    from one. *)
Definition newRng {M D G : Type} (int63 : M -> D * M) (make : D -> G) : op M G :=
  Exclusive (ReadValue (fun m => WriteValue (snd (int63 m)) (Finish (make (fst (int63 m)))))).

(** ** xsync.Pool *)

(** The pointers in the pool, and a number above all pointers seen so far. *)
Record store : Type := { inside_ : list nat; above : nat }.

(** sync.Pool.Get: something in it, or what New makes, or nil if there is no New.
    New makes a new pointer. *)
Inductive syncGet (hasNew : bool) (s : store) : option nat -> store -> Prop :=
| sg_old p kept dropped : Permutation (inside_ s) (p :: kept ++ dropped) ->
    syncGet hasNew s (Some p) {| inside_ := kept; above := above s |}
| sg_new kept dropped : hasNew = true -> Permutation (inside_ s) (kept ++ dropped) ->
    syncGet hasNew s (Some (above s)) {| inside_ := kept; above := S (above s) |}
| sg_nil kept dropped : hasNew = false -> Permutation (inside_ s) (kept ++ dropped) ->
    syncGet hasNew s None {| inside_ := kept; above := above s |}.

(** xsync/pool.go:15-17: the type assertion. *)
Definition asserted (x : option nat) : outcome nat :=
  match x with Some p => Ok p | None => Panic "interface conversion: interface {} is nil, not *T" end.

Inductive happening : Type := HPut (p : nat) | HGet (r : outcome nat).
Inductive storeStep (hasNew : bool) : store -> happening -> store -> Prop :=
| ss_put s p : (* xsync/pool.go:11-13 *)
    storeStep hasNew s (HPut p) {| inside_ := p :: inside_ s; above := Nat.max (above s) (S p) |}
| ss_get s x s' : syncGet hasNew s x s' -> storeStep hasNew s (HGet (asserted x)) s'.
(** Histories, from an empty pool.  The operations of sync.Pool are atomic, so
    these are also the histories of several goroutines. *)
Inductive history (hasNew : bool) : list happening -> store -> Prop :=
| h_nil : history hasNew [] {| inside_ := []; above := 0 |}
| h_snoc l s e s' : history hasNew l s -> storeStep hasNew s e s' -> history hasNew (l ++ [e]) s'.
