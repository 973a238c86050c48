(** Vocabulary for streams whose callbacks call Next on them. *)
From Verif Require Import Base Exn Stream_Model Stream_Reent_Model.
Local Open Scope list_scope.
Local Open Scope Z_scope.

(** Code that does not panic by itself. *)
CoInductive calm {W T A} : code W T A -> Prop :=
| calm_done a : calm (Done a)
| calm_look k : (forall w, calm (k w)) -> calm (Look k)
| calm_change w k : calm k -> calm (Change w k)
| calm_pull k : (forall v, calm (k v)) -> calm (Pull k).

Definition calmOp {W T} (o : rop W T) : Prop :=
  match o with
  | RPred p => forall v, calm (p v)
  | RMap f => forall v, calm (f v)
  | RPeek c => forall v, calm (c v)
  | RSkip _ | RLimit _ => True
  end.
(** A source that does not panic from the states [ok] on. *)
Definition calmSource {S W T} (ok : S -> Prop) (src : source S W T) : Prop := forall z w, ok z ->
  (forall e, fst (sNext src (z, w)) <> Panic e) /\ ok (fst (snd (sNext src (z, w)))).

(** Stages that neither keep elements back nor count. *)
Definition passes {W T} (o : rop W T) : Prop := match o with RMap _ | RPeek _ => True | _ => False end.

(** Code that leaves [obs], now [o], alone; what it pulls may change it. *)
CoInductive keeps {W T A} (obs : W -> Z) (o : Z) : code W T A -> Prop :=
| keeps_done a : keeps obs o (Done a)
| keeps_throw e : keeps obs o (Throw e)
| keeps_look k : (forall w, obs w = o -> keeps obs o (k w)) -> keeps obs o (Look k)
| keeps_change w k : obs w = o -> keeps obs o k -> keeps obs o (Change w k)
| keeps_pull k : (forall v o', keeps obs o' (k v)) -> keeps obs o (Pull k).
Definition keepsOp {W T} (obs : W -> Z) (o : rop W T) : Prop :=
  match o with
  | RPred p => forall v n, keeps obs n (p v)
  | RMap f => forall v n, keeps obs n (f v)
  | RPeek c => forall v n, keeps obs n (c v)
  | RSkip _ | RLimit _ => True
  end.
Definition keepsSource {S W T} (obs : W -> Z) (src : source S W T) : Prop :=
  forall z w, obs (snd (snd (sNext src (z, w)))) = obs w.

(** A Peek that counts its calls. *)
Definition counting {W T} (bump : W -> W) : rop W T := RPeek (fun _ => Look (fun w => Change (bump w) (Done tt))).

(** Code that runs [f] and does not call Next. *)
CoFixpoint forever {W T A} : code W T A := Look (fun _ => forever).
Definition plain {W T A} (f : X W A) : code W T A :=
  Look (fun w => match f w with
                 | (Ok a, w') => Change w' (Done a)
                 | (Panic e, w') => Change w' (Throw e)
                 | (Diverge, w') => Change w' forever
                 end).
Definition plainOp {W T} (o : op W T) : rop W T :=
  match o with
  | OPred p => RPred (fun v => plain (p v))
  | OSkip n => RSkip n
  | OLimit n => RLimit n
  | OMap f => RMap (fun v => plain (f v))
  | OPeek c => RPeek (fun v => plain (c v))
  end.

(** Calls of Next one after the other; a panic is recovered. *)
Fixpoint rnexts {S W T} (src : source S W T) (fuels : list nat) (s : rstream S W T) : list (outcome (option T)) * rstream S W T :=
  match fuels with
  | [] => ([], s)
  | fuel :: fuels =>
      let '(r, s1) := rnext src fuel s in
      let '(rs, s2) := rnexts src fuels s1 in (r :: rs, s2)
  end.

(** Map with a callback that takes the next element of the stream too. *)
Definition combining {W T} (f : T -> option T -> T) : rop W T := RMap (fun v => Pull (fun r => Done (f v r))).
