(** Model of xrand/pool.go, secrand/pool.go and the package-level functions of both,
    with the state of the master generator and of every generator that was made:
    drawing a number reads the state and then writes it, without any lock. *)
From Coq Require Import Permutation.
From Verif Require Import Base Arr Lin.
Local Open Scope list_scope.

Section Gen.
  (** The master's numbers (or 32 bytes each, in secrand), the generator made from
      one, and the words it delivers. *)
  Context {M D G W : Type} (int63 : M -> D * M) (make : D -> G) (next : G -> W * G).

  (** What code between Get and Put does: it draws a word, it calls something that
      uses the package itself, or it puts the generator back too early. *)
  Inductive gact : Type := GDraw | GCall (b : list gact) | GPut.

  (** A running call: in Get; in New (xrand/pool.go:15-19, secrand/rng.go:64-71)
      before Lock, after it, after reading the master, after writing it; with its
      generator; in the middle of a draw. *)
  Inductive gframe : Type :=
  | GGet (b : list gact)
  | GNew (b : list gact)
  | GLocked (b : list gact)
  | GSeeding (m : M) (b : list gact)
  | GSeeded (d : D) (b : list gact)
  | GHold (g : nat) (b : list gact)
  | GDrawing (g : nat) (s : G) (b : list gact).

  Record gpool : Type := mkGPool {
    gcontents : list nat;        (* the generators in the sync.Pool *)
    gstates : list G;            (* the state of every generator made so far *)
    master : M;                  (* xrand/pool.go:12 _masterRng, secrand/rng.go *)
    masterLock : option nat;     (* xrand/pool.go:11 _masterRngLock *)
    drawnLog : list (nat * nat * W)  (* who drew from which generator what *)
  }.

  (** xrand/pool.go:21-27, secrand/pool.go:14-20; sync.Pool as in Pool_Model.v. *)
  Inductive gstep (t : nat) : list gframe -> gpool -> list gframe -> gpool -> Prop :=
  | gs_get b fs p g kept dropped : Permutation (gcontents p) (g :: kept ++ dropped) ->
      gstep t (GGet b :: fs) p (GHold g b :: fs) (mkGPool kept (gstates p) (master p) (masterLock p) (drawnLog p))
  | gs_miss b fs p kept dropped : Permutation (gcontents p) (kept ++ dropped) ->
      gstep t (GGet b :: fs) p (GNew b :: fs) (mkGPool kept (gstates p) (master p) (masterLock p) (drawnLog p))
  | gs_lock b fs p : masterLock p = None ->
      gstep t (GNew b :: fs) p (GLocked b :: fs) (mkGPool (gcontents p) (gstates p) (master p) (Some t) (drawnLog p))
  | gs_read b fs p : gstep t (GLocked b :: fs) p (GSeeding (master p) b :: fs) p
  | gs_write m b fs p :
      gstep t (GSeeding m b :: fs) p (GSeeded (fst (int63 m)) b :: fs) (mkGPool (gcontents p) (gstates p) (snd (int63 m)) (masterLock p) (drawnLog p))
  | gs_unlock d b fs p :
      gstep t (GSeeded d b :: fs) p (GHold (List.length (gstates p)) b :: fs) (mkGPool (gcontents p) (gstates p ++ [make d]) (master p) None (drawnLog p))
  | gs_draw g b fs p s : nth_error (gstates p) g = Some s ->
      gstep t (GHold g (GDraw :: b) :: fs) p (GDrawing g s b :: fs) p
  | gs_drawn g s b fs p :
      gstep t (GDrawing g s b :: fs) p (GHold g b :: fs)
        (mkGPool (gcontents p) (upd (gstates p) g (snd (next s))) (master p) (masterLock p) (drawnLog p ++ [(t, g, fst (next s))]))
  | gs_call g b' b fs p : gstep t (GHold g (GCall b' :: b) :: fs) p (GGet b' :: GHold g b :: fs) p
  | gs_early g b fs p : gstep t (GHold g (GPut :: b) :: fs) p (GHold g b :: fs)
        (mkGPool (g :: gcontents p) (gstates p) (master p) (masterLock p) (drawnLog p))
  | gs_panic g a b fs p : gstep t (GHold g (a :: b) :: fs) p (GHold g [] :: fs) p (* the rest is skipped, the deferred Put is not *)
  | gs_put g fs p : gstep t (GHold g [] :: fs) p fs (mkGPool (g :: gcontents p) (gstates p) (master p) (masterLock p) (drawnLog p)).

  Definition genter (b : list gact) : list gframe := [GGet b].
  Definition gleft (fs : list gframe) : option unit := match fs with [] => Some tt | _ => None end.
  Definition gstart (m0 : M) : gpool := mkGPool [] [] m0 None [].
  Definition generating (m0 : M) : list (event (list gact) unit) -> config (list gact) gpool (list gframe) -> Prop :=
    runs genter gleft gstep (gstart m0).
End Gen.
