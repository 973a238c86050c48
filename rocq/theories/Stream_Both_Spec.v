(** Vocabulary for streams whose callbacks add stages to them and call Next. *)
From Verif Require Import Base Arr Exn Stream_Model Stream_Reent_Model Stream_Reent_Spec Stream_Grow_Model Stream_Both_Model.
Local Open Scope list_scope.
Local Open Scope Z_scope.

(** Code that leaves [obs], now [o], alone; what it pulls may change it.  The
    stages it adds are in [P]. *)
CoInductive bkeeps {W T A} (P : bop W T -> Prop) (obs : W -> Z) (o : Z) : bcode (bop W T) W T A -> Prop :=
| bkeeps_done a : bkeeps P obs o (BDone a)
| bkeeps_throw e : bkeeps P obs o (BThrow e)
| bkeeps_look k : (forall w, obs w = o -> bkeeps P obs o (k w)) -> bkeeps P obs o (BLook k)
| bkeeps_change w k : obs w = o -> bkeeps P obs o k -> bkeeps P obs o (BChange w k)
| bkeeps_pull k : (forall v o', bkeeps P obs o' (k v)) -> bkeeps P obs o (BPull k)
| bkeeps_build p k : P p -> bkeeps P obs o k -> bkeeps P obs o (BBuild p k).
(** Stages that leave [obs] alone, and so do the stages they add, and so on. *)
CoInductive bkeepsOp {W T} (obs : W -> Z) : bop W T -> Prop :=
| bkeeps_pred p : (forall v n, bkeeps (bkeepsOp obs) obs n (p v)) -> bkeepsOp obs (BPred p)
| bkeeps_skip n : bkeepsOp obs (BSkip n)
| bkeeps_limit n : bkeepsOp obs (BLimit n)
| bkeeps_map f : (forall v n, bkeeps (bkeepsOp obs) obs n (f v)) -> bkeepsOp obs (BMap f)
| bkeeps_peek c : (forall v n, bkeeps (bkeepsOp obs) obs n (c v)) -> bkeepsOp obs (BPeek c).
Definition bkeepsUse {W T} (obs : W -> Z) (u : buse W T) : Prop :=
  match u with VNext _ => True | VBuild o => bkeepsOp obs o end.
(** Neither call of the source changes [obs]. *)
Definition bkeepsSource {S W T} (obs : W -> Z) (src : source S W T) : Prop :=
  forall z w, obs (snd (snd (sNext src (z, w)))) = obs w /\ forall n, obs (snd (snd (sSkip src n (z, w)))) = obs w.

(** A Peek that counts its calls. *)
Definition bcounting {W T} (bump : W -> W) : bop W T := BPeek (fun _ => BLook (fun w => BChange (bump w) (BDone tt))).

(** Callbacks that add no stages, as callbacks of this model. *)
CoFixpoint bcall {O W T A} (c : code W T A) : bcode O W T A :=
  match c with
  | Done a => BDone a
  | Throw e => BThrow e
  | Look k => BLook (fun w => bcall (k w))
  | Change w k => BChange w (bcall k)
  | Pull k => BPull (fun v => bcall (k v))
  end.
Definition bcallOp {W T} (o : rop W T) : bop W T :=
  match o with
  | RPred p => BPred (fun v => bcall (p v))
  | RSkip n => BSkip n
  | RLimit n => BLimit n
  | RMap f => BMap (fun v => bcall (f v))
  | RPeek c => BPeek (fun v => bcall (c v))
  end.

(** Callbacks that do not call Next, as callbacks of this model. *)
Fixpoint badd {W T} (o : gop W T) : bop W T :=
  let fix tr A (c : gcode (gop W T) W A) : bcode (bop W T) W T A :=
    match c with
    | GDone a => BDone a
    | GThrow e => BThrow e
    | GLook k => BLook (fun w => tr A (k w))
    | GChange w k => BChange w (tr A k)
    | GBuild o k => BBuild (badd o) (tr A k)
    end in
  match o with
  | GPred p => BPred (fun v => tr bool (p v))
  | GSkip n => BSkip n
  | GLimit n => BLimit n
  | GMap f => BMap (fun v => tr T (f v))
  | GPeek c => BPeek (fun v => tr unit (c v))
  end.
(** The same uses, with other fuel. *)
Definition badds {W T} (fuel : nat) (u : guse W T) : buse W T :=
  match u with UNext _ => VNext fuel | UBuild o => VBuild (badd o) end.
