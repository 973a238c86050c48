(** What a stream does whose callbacks add stages to it: the stages are a list,
    and an element goes through those that were there when it was taken from the
    source.  Stages added meanwhile are for the elements that follow. *)
From Verif Require Import Base Arr Exn Stream_Model Stream_Grow_Model.
Local Open Scope exn_scope.
Local Open Scope string_scope.
Local Open Scope list_scope.
Local Open Scope Z_scope.

Record lstream (S W T : Type) : Type := mkL {
  lalive : bool; lstages : list (gop W T); lpred : bool; lsrc : S; lworld : W }.
Arguments mkL {S W T}. Arguments lalive {S W T}. Arguments lstages {S W T}. Arguments lpred {S W T}.
Arguments lsrc {S W T}. Arguments lworld {S W T}.

Section Spec.
  Context {S W T : Type} (src : source S W T).
  Local Notation st := (lstream S W T).

  Definition ladd (o : gop W T) (p : bool) : X st unit := fun s =>
    (Ok tt, mkL (lalive s) (lstages s ++ [o]) (lpred s || p) (lsrc s) (lworld s)).
  (** The counter of stage number [i] moves. *)
  Definition lset (i : nat) (o : gop W T) : X st unit := fun s =>
    (Ok tt, mkL (lalive s) (upd (lstages s) i o) (lpred s) (lsrc s) (lworld s)).
  Definition lsource {A} (m : X (S * W) A) : X st A := fun s =>
    let '(r, (z, w)) := m (lsrc s, lworld s) in (r, mkL (lalive s) (lstages s) (lpred s) z w).
  Definition lchange (w : W) : X st unit := fun s => (Ok tt, mkL (lalive s) (lstages s) (lpred s) (lsrc s) w).
  Definition lend : X st unit := fun s => (Ok tt, mkL false [] (lpred s) (lsrc s) (lworld s)).

  (** A builder call adds a stage at the end; Skip goes to the source if nothing
      before it keeps elements back. *)
  Definition lbuild (o : gop W T) : X st unit :=
    match o with
    | GPred _ => ladd o true
    | GMap _ | GPeek _ => ladd o false
    | GLimit n => if n <? 0 then xpanic "Stream.Limit: negative value" else ladd o true
    | GSkip n =>
        if n <? 0 then xpanic "Stream.Skip: negative value" else
        if n =? 0 then xret tt else
        's <- xget ;;
        if negb (lpred s) then
          if lalive s then lsource (sSkip src n) ;; xret tt
          else xpanic "invalid memory address or nil pointer dereference"
        else ladd o true
    end.
  Fixpoint lrun {A} (c : gcode (gop W T) W A) : X st A :=
    match c with
    | GDone a => xret a
    | GThrow e => xpanic e
    | GLook k => 's <- xget ;; lrun (k (lworld s))
    | GChange w k => lchange w ;; lrun k
    | GBuild o k => lbuild o ;; lrun k
    end.

  (** The element [v] goes through the stages [todo]; the first of them is number [i]. *)
  Fixpoint lthrough (todo : list (gop W T)) (i : nat) (v : T) : X st (verdict T) :=
    match todo with
    | [] => xret (Emit v)
    | GPred p :: rest => b <- lrun (p v) ;; if b : bool then lthrough rest (i + 1) v else xret Reject
    | GSkip k :: rest => if k >? 0 then lset i (GSkip (k - 1)) ;; xret Reject else lthrough rest (i + 1) v
    | GLimit k :: rest => if k >? 0 then lset i (GLimit (k - 1)) ;; lthrough rest (i + 1) v else xret Stop
    | GMap f :: rest => v' <- lrun (f v) ;; lthrough rest (i + 1) v'
    | GPeek c :: rest => lrun (c v) ;; lthrough rest (i + 1) v
    end.

  Fixpoint lloop (fuel : nat) : X st (option T) :=
    match fuel with
    | O => fun s => (Diverge, s)
    | Datatypes.S fuel =>
        v <- lsource (sNext src) ;;
        match v with
        | None => lend ;; xret None
        | Some v =>
            's <- xget ;;
            r <- lthrough (lstages s) 0 v ;;
            match r with
            | Emit v => xret (Some v)
            | Reject => lloop fuel
            | Stop => lend ;; xret None
            end
        end
    end.
  Definition lnext (fuel : nat) : X st (option T) :=
    's <- xget ;;
    if lalive s then lloop fuel else lend ;; xret None.

  Definition luse1 (u : guse W T) : X st (option T) :=
    match u with
    | UNext fuel => lnext fuel
    | UBuild o => lbuild o ;; xret None
    end.
End Spec.

(** The elements up to the first with [stop], and that one too. *)
Fixpoint upTo {T} (stop : T -> bool) (l : list T) : list T :=
  match l with
  | [] => []
  | x :: l' => if stop x then [x] else x :: upTo stop l'
  end.

(** Filter(func(v T) bool { if stop(v) { s.Limit(0) }; return true }) *)
Definition stopping {W T} (stop : T -> bool) : gop W T :=
  GPred (fun v => if stop v then GBuild (GLimit 0) (GDone true) else GDone true).

(** Callbacks that add no stages. *)
Definition still {O W A} (f : X W A) : gcode O W A :=
  GLook (fun w => match f w with
                  | (Ok a, w') => GChange w' (GDone a)
                  | (Panic e, w') => GChange w' (GThrow e)
                  | (Diverge, w') => GThrow "does not return"
                  end).
Definition stillOp {W T} (o : op W T) : gop W T :=
  match o with
  | OPred p => GPred (fun v => still (p v))
  | OSkip n => GSkip n
  | OLimit n => GLimit n
  | OMap f => GMap (fun v => still (f v))
  | OPeek c => GPeek (fun v => still (c v))
  end.
(** Callbacks that return or panic. *)
Definition ends {W T} (o : op W T) : Prop :=
  match o with
  | OPred p => forall v w, fst (p v w) <> Diverge
  | OMap f => forall v w, fst (f v w) <> Diverge
  | OPeek c => forall v w, fst (c v w) <> Diverge
  | _ => True
  end.

(** Uses of the stream of Stream_Model: stages are added from outside only. *)
Inductive suse (W T : Type) : Type := SNext (fuel : nat) | SBuild (o : op W T).
Arguments SNext {W T}. Arguments SBuild {W T}.
Definition suse1 {S W T} (src : source S W T) (u : suse W T) : X (stream W T * (S * W)) (option T) :=
  match u with
  | SNext fuel => Next_ src fuel
  | SBuild (OPred p) => Filter p ;; xret None
  | SBuild (OSkip n) => Skip src n ;; xret None
  | SBuild (OLimit n) => Limit n ;; xret None
  | SBuild (OMap f) => Map_ f ;; xret None
  | SBuild (OPeek c) => Peek c ;; xret None
  end.
Definition stillUse {W T} (u : suse W T) : guse W T :=
  match u with SNext fuel => UNext fuel | SBuild o => UBuild (stillOp o) end.
Definition endsUse {W T} (u : suse W T) : Prop :=
  match u with SNext _ => True | SBuild o => ends o end.
