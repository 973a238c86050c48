(** Model of stream/stream.go again, for callbacks that both add stages to the
    stream they belong to and call Next on it.  They do not recover from a panic
    of these calls.  The source does not reach the stream.  Stream_Reent_Model and
    Stream_Grow_Model are the two halves of this. *)
From Verif Require Import Base Arr Exn Stream_Model.
Local Open Scope exn_scope.
Local Open Scope string_scope.
Local Open Scope list_scope.
Local Open Scope Z_scope.

(** The code of a callback: it reads and writes the world, calls Next, adds a
    stage [o], and returns or panics.  It may run forever. *)
CoInductive bcode (O W T A : Type) : Type :=
| BDone (a : A)
| BThrow (e : string)
| BLook (k : W -> bcode O W T A)
| BChange (w : W) (k : bcode O W T A)
| BPull (k : option T -> bcode O W T A)
| BBuild (o : O) (k : bcode O W T A).
Arguments BDone {O W T A}. Arguments BThrow {O W T A}. Arguments BLook {O W T A}. Arguments BChange {O W T A}.
Arguments BPull {O W T A}. Arguments BBuild {O W T A}.

(** stream.go:46-47 and what else may be in Stream.ops; also the calls that put it there. *)
Inductive bop (W T : Type) : Type :=
| BPred (p : T -> bcode (bop W T) W T bool)
| BSkip (n : Z)
| BLimit (n : Z)
| BMap (f : T -> bcode (bop W T) W T T)
| BPeek (c : T -> bcode (bop W T) W T unit).
Arguments BPred {W T}. Arguments BSkip {W T}. Arguments BLimit {W T}. Arguments BMap {W T}. Arguments BPeek {W T}.

(** stream.go:49-57 Stream, with its source, the world and the memory.  An array
    is its length and the cells written so far; [slice] is the array that s.ops
    is made of, all cells written, or None if s.ops is nil. *)
Record bstream (S W T : Type) : Type := mkB {
  bhas : bool; arrays : list (nat * list (bop W T)); slice : option nat; bpred : bool; bsrc : S; bworld : W }.
Arguments mkB {S W T}. Arguments bhas {S W T}. Arguments arrays {S W T}. Arguments slice {S W T}.
Arguments bpred {S W T}. Arguments bsrc {S W T}. Arguments bworld {S W T}.

(** stream.go:59-63 New: s.ops = s.buf[:0], an array of 8. *)
Definition bnew {S W T} (z : S) (w : W) : bstream S W T := mkB true [(8%nat, [])] (Some 0%nat) false z w.

Section Stream.
  (** [grow]: the length of the array append makes when one is full. *)
  Context {S W T : Type} (src : source S W T) (grow : nat -> nat).
  Local Notation st := (bstream S W T).
  Local Notation bop := (bop W T).

  (** s.ops = append(s.ops, o), and s.hasPred = true if [p]. *)
  Definition bappend (o : bop) (p : bool) : X st unit := fun s =>
    let fresh cap l := (Ok tt, mkB (bhas s) (arrays s ++ [(grow cap, l ++ [o])]) (Some (List.length (arrays s))) (bpred s || p) (bsrc s) (bworld s)) in
    match slice s with
    | None => fresh 0%nat []
    | Some a =>
        match nth_error (arrays s) a with
        | None => (Panic "invalid memory address or nil pointer dereference", s)
        | Some (cap, l) =>
            if (List.length l <? cap)%nat
            then (Ok tt, mkB (bhas s) (upd (arrays s) a (cap, l ++ [o])) (Some a) (bpred s || p) (bsrc s) (bworld s))
            else fresh cap l
        end
    end.

  (** s.ops[i] = o *)
  Definition bstore (i : nat) (o : bop) : X st unit := fun s =>
    match slice s with
    | None => (Panic "index out of range", s)
    | Some a =>
        match nth_error (arrays s) a with
        | None => (Panic "invalid memory address or nil pointer dereference", s)
        | Some (cap, l) =>
            if (i <? List.length l)%nat
            then (Ok tt, mkB (bhas s) (upd (arrays s) a (cap, upd l i o)) (Some a) (bpred s) (bsrc s) (bworld s))
            else (Panic "index out of range", s)
        end
    end.

  (** A call of the source. *)
  Definition bsource {A} (m : X (S * W) A) : X st A := fun s =>
    let '(r, (z, w)) := m (bsrc s, bworld s) in (r, mkB (bhas s) (arrays s) (slice s) (bpred s) z w).
  (** What a callback does to the world. *)
  Definition bchange (w : W) : X st unit := fun s =>
    (Ok tt, mkB (bhas s) (arrays s) (slice s) (bpred s) (bsrc s) w).

  (** stream.go:112-151: Map, Filter, Skip, Limit, Peek. *)
  Definition bbuild (o : bop) : X st unit :=
    match o with
    | BPred _ => bappend o true
    | BMap _ | BPeek _ => bappend o false
    | BLimit n => if n <? 0 then xpanic "Stream.Limit: negative value" else bappend o true
    | BSkip n =>
        if n <? 0 then xpanic "Stream.Skip: negative value" else
        if n =? 0 then xret tt else
        's <- xget ;;
        if negb (bpred s) then
          if bhas s then bsource (sSkip src n) ;; xret tt
          else xpanic "invalid memory address or nil pointer dereference"
        else bappend o true
    end.

  (** stream.go:157-160 clear. *)
  Definition bclear : X st unit := fun s => (Ok tt, mkB false (arrays s) None (bpred s) (bsrc s) (bworld s)).

  (** Running a callback; stream.go:67-103 Next; its loop over the source; the
      loop over s.ops for the element [v] (line 73: range takes the slice once,
      the array [a] and [n] cells of it from [i] on, and reads each cell when its
      turn comes). *)
  Fixpoint brun (A : Type) (fuel : nat) (c : bcode bop W T A) : X st A :=
    match fuel with
    | O => fun s => (Diverge, s)
    | Datatypes.S fuel =>
        match c with
        | BDone a => xret a
        | BThrow e => xpanic e
        | BLook k => 's <- xget ;; brun A fuel (k (bworld s))
        | BChange w k => bchange w ;; brun A fuel k
        | BPull k => v <- bnext fuel ;; brun A fuel (k v)
        | BBuild o k => bbuild o ;; brun A fuel k
        end
    end
  with bnext (fuel : nat) : X st (option T) :=
    match fuel with
    | O => fun s => (Diverge, s)
    | Datatypes.S fuel =>
        's <- xget ;;
        if bhas s then bloop fuel else bclear ;; xret None
    end
  with bloop (fuel : nat) : X st (option T) :=
    match fuel with
    | O => fun s => (Diverge, s)
    | Datatypes.S fuel =>
        's <- xget ;;
        if negb (bhas s) then xpanic "invalid memory address or nil pointer dereference" else
        v <- bsource (sNext src) ;;
        match v with
        | None => bclear ;; xret None
        | Some v =>
            's <- xget ;;
            r <- match slice s with
                 | None => xret (Emit v)
                 | Some a =>
                     match nth_error (arrays s) a with
                     | None => xpanic "invalid memory address or nil pointer dereference"
                     | Some (_, l) => bstages fuel a (List.length l) 0 v
                     end
                 end ;;
            match r with
            | Emit v => xret (Some v)
            | Reject => bloop fuel
            | Stop => bclear ;; xret None
            end
        end
    end
  with bstages (fuel a n i : nat) (v : T) : X st (verdict T) :=
    match fuel with
    | O => fun s => (Diverge, s)
    | Datatypes.S fuel =>
        match n with
        | O => xret (Emit v)
        | Datatypes.S n =>
            's <- xget ;;
            match nth_error (arrays s) a with
            | None => xpanic "invalid memory address or nil pointer dereference"
            | Some (_, l) =>
                match nth_error l i with
                | None => xpanic "index out of range"
                | Some (BPred p) =>
                    b <- brun bool fuel (p v) ;;
                    if b : bool then bstages fuel a n (i + 1) v else xret Reject
                | Some (BSkip k) =>
                    if k >? 0 then bstore i (BSkip (k - 1)) ;; xret Reject
                    else bstages fuel a n (i + 1) v
                | Some (BLimit k) =>
                    if k >? 0 then bstore i (BLimit (k - 1)) ;; bstages fuel a n (i + 1) v
                    else xret Stop
                | Some (BMap f) => v' <- brun T fuel (f v) ;; bstages fuel a n (i + 1) v'
                | Some (BPeek c) => brun unit fuel (c v) ;; bstages fuel a n (i + 1) v
                end
            end
        end
    end.
End Stream.

(** A use of the stream from outside: a call of Next or of a builder method. *)
Inductive buse (W T : Type) : Type := VNext (fuel : nat) | VBuild (o : bop W T).
Arguments VNext {W T}. Arguments VBuild {W T}.
Definition buse1 {S W T} (src : source S W T) grow (u : buse W T) : X (bstream S W T) (option T) :=
  match u with
  | VNext fuel => bnext src grow fuel
  | VBuild o => bbuild src grow o ;; xret None
  end.
