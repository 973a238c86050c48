(** Model of stream/stream.go again, for callbacks that add stages to the stream
    they belong to, down to the arrays that s.ops is a slice of.  They do not call
    Next (see Stream_Reent_Model), do not recover from a panic of Skip or Limit,
    and return or panic in the end.  The source does not reach the stream. *)
From Verif Require Import Base Arr Exn Stream_Model.
Local Open Scope exn_scope.
Local Open Scope string_scope.
Local Open Scope list_scope.
Local Open Scope Z_scope.

(** The code of a callback: it reads and writes the world, adds a stage [o], and
    returns or panics. *)
Inductive gcode (O W A : Type) : Type :=
| GDone (a : A)
| GThrow (e : string)
| GLook (k : W -> gcode O W A)
| GChange (w : W) (k : gcode O W A)
| GBuild (o : O) (k : gcode O W A).
Arguments GDone {O W A}. Arguments GThrow {O W A}. Arguments GLook {O W A}. Arguments GChange {O W A}. Arguments GBuild {O W A}.

(** stream.go:46-47 and what else may be in Stream.ops; also the calls that put it there. *)
Inductive gop (W T : Type) : Type :=
| GPred (p : T -> gcode (gop W T) W bool)
| GSkip (n : Z)
| GLimit (n : Z)
| GMap (f : T -> gcode (gop W T) W T)
| GPeek (c : T -> gcode (gop W T) W unit).
Arguments GPred {W T}. Arguments GSkip {W T}. Arguments GLimit {W T}. Arguments GMap {W T}. Arguments GPeek {W T}.

(** stream.go:49-57 Stream, with its source, the world and the memory.  An array
    is its length and the cells written so far; [slice] is the array that s.ops
    is made of, all cells written, or None if s.ops is nil. *)
Record gstream (S W T : Type) : Type := mkG {
  hasSrc : bool; arrays : list (nat * list (gop W T)); slice : option nat; hasP : bool; gsrc : S; gworld : W }.
Arguments mkG {S W T}. Arguments hasSrc {S W T}. Arguments arrays {S W T}. Arguments slice {S W T}.
Arguments hasP {S W T}. Arguments gsrc {S W T}. Arguments gworld {S W T}.

(** stream.go:59-63 New: s.ops = s.buf[:0], an array of 8. *)
Definition gnew {S W T} (z : S) (w : W) : gstream S W T := mkG true [(8%nat, [])] (Some 0%nat) false z w.

Section Stream.
  (** [grow]: the length of the array append makes when one is full. *)
  Context {S W T : Type} (src : source S W T) (grow : nat -> nat).
  Local Notation st := (gstream S W T).
  Local Notation gop := (gop W T).

  (** s.ops = append(s.ops, o), and s.hasPred = true if [p]. *)
  Definition gappend (o : gop) (p : bool) : X st unit := fun s =>
    let fresh cap l := (Ok tt, mkG (hasSrc s) (arrays s ++ [(grow cap, l ++ [o])]) (Some (List.length (arrays s))) (hasP s || p) (gsrc s) (gworld s)) in
    match slice s with
    | None => fresh 0%nat []
    | Some a =>
        match nth_error (arrays s) a with
        | None => (Panic "invalid memory address or nil pointer dereference", s)
        | Some (cap, l) =>
            if (List.length l <? cap)%nat
            then (Ok tt, mkG (hasSrc s) (upd (arrays s) a (cap, l ++ [o])) (Some a) (hasP s || p) (gsrc s) (gworld s))
            else fresh cap l
        end
    end.

  (** s.ops[i] = o *)
  Definition gstore (i : nat) (o : gop) : X st unit := fun s =>
    match slice s with
    | None => (Panic "index out of range", s)
    | Some a =>
        match nth_error (arrays s) a with
        | None => (Panic "invalid memory address or nil pointer dereference", s)
        | Some (cap, l) =>
            if (i <? List.length l)%nat
            then (Ok tt, mkG (hasSrc s) (upd (arrays s) a (cap, upd l i o)) (Some a) (hasP s) (gsrc s) (gworld s))
            else (Panic "index out of range", s)
        end
    end.

  Definition gsource {A} (m : X (S * W) A) : X st A := fun s =>
    let '(r, (z, w)) := m (gsrc s, gworld s) in (r, mkG (hasSrc s) (arrays s) (slice s) (hasP s) z w).
  Definition gchange (w : W) : X st unit := fun s =>
    (Ok tt, mkG (hasSrc s) (arrays s) (slice s) (hasP s) (gsrc s) w).

  (** stream.go:112-151: Map, Filter, Skip, Limit, Peek. *)
  Definition gbuild (o : gop) : X st unit :=
    match o with
    | GPred _ => gappend o true
    | GMap _ | GPeek _ => gappend o false
    | GLimit n => if n <? 0 then xpanic "Stream.Limit: negative value" else gappend o true
    | GSkip n =>
        if n <? 0 then xpanic "Stream.Skip: negative value" else
        if n =? 0 then xret tt else
        's <- xget ;;
        if negb (hasP s) then
          if hasSrc s then gsource (sSkip src n) ;; xret tt
          else xpanic "invalid memory address or nil pointer dereference"
        else gappend o true
    end.

  (** Running a callback. *)
  Fixpoint grun {A} (c : gcode gop W A) : X st A :=
    match c with
    | GDone a => xret a
    | GThrow e => xpanic e
    | GLook k => 's <- xget ;; grun (k (gworld s))
    | GChange w k => gchange w ;; grun k
    | GBuild o k => gbuild o ;; grun k
    end.

  (** stream.go:73-97: the loop over s.ops, for the element [v].  range takes the
      slice once: the array [a] and the number of cells, [n] of which from [i] on
      are left. *)
  Fixpoint gstages (a n i : nat) (v : T) : X st (verdict T) :=
    match n with
    | O => xret (Emit v)
    | Datatypes.S n =>
        's <- xget ;;
        match nth_error (arrays s) a with
        | None => xpanic "invalid memory address or nil pointer dereference"
        | Some (_, l) =>
            match nth_error l i with
            | None => xpanic "index out of range"
            | Some (GPred p) =>
                b <- grun (p v) ;;
                if b : bool then gstages a n (i + 1) v else xret Reject
            | Some (GSkip k) =>
                if k >? 0 then gstore i (GSkip (k - 1)) ;; xret Reject
                else gstages a n (i + 1) v
            | Some (GLimit k) =>
                if k >? 0 then gstore i (GLimit (k - 1)) ;; gstages a n (i + 1) v
                else xret Stop
            | Some (GMap f) => v' <- grun (f v) ;; gstages a n (i + 1) v'
            | Some (GPeek c) => grun (c v) ;; gstages a n (i + 1) v
            end
        end
    end.
  Definition grange (v : T) : X st (verdict T) :=
    's <- xget ;;
    match slice s with
    | None => xret (Emit v)
    | Some a =>
        match nth_error (arrays s) a with
        | None => xpanic "invalid memory address or nil pointer dereference"
        | Some (_, l) => gstages a (List.length l) 0 v
        end
    end.

  (** stream.go:157-160 clear. *)
  Definition gclear : X st unit := fun s => (Ok tt, mkG false (arrays s) None (hasP s) (gsrc s) (gworld s)).

  (** stream.go:71-102, the loop over the source and its end. *)
  Fixpoint gloop (fuel : nat) : X st (option T) :=
    match fuel with
    | O => fun s => (Diverge, s)
    | Datatypes.S fuel =>
        v <- gsource (sNext src) ;;
        match v with
        | None => gclear ;; xret None
        | Some v =>
            r <- grange v ;;
            match r with
            | Emit v => xret (Some v)
            | Reject => gloop fuel
            | Stop => gclear ;; xret None
            end
        end
    end.
  (** stream.go:67-103 Next. *)
  Definition gnext (fuel : nat) : X st (option T) :=
    's <- xget ;;
    if hasSrc s then gloop fuel else gclear ;; xret None.
End Stream.

(** A use of the stream from outside: a call of Next or of a builder method. *)
Inductive guse (W T : Type) : Type := UNext (fuel : nat) | UBuild (o : gop W T).
Arguments UNext {W T}. Arguments UBuild {W T}.
Definition guse1 {S W T} (src : source S W T) grow (u : guse W T) : X (gstream S W T) (option T) :=
  match u with
  | UNext fuel => gnext src grow fuel
  | UBuild o => gbuild src grow o ;; xret None
  end.
