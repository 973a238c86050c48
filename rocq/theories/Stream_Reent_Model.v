(** Model of stream/stream.go again, for callbacks that call Next on the stream
    they belong to.  They call no other method of it, and do not recover from a
    panic of Next.  The source does not reach the stream. *)
From Verif Require Import Base Arr Exn Stream_Model.
Local Open Scope exn_scope.
Local Open Scope string_scope.
Local Open Scope list_scope.
Local Open Scope Z_scope.

(** The code of a callback: it reads and writes the world, calls Next, and
    returns or panics.  It may run forever. *)
CoInductive code (W T A : Type) : Type :=
| Done (a : A)
| Throw (e : string)
| Look (k : W -> code W T A)
| Change (w : W) (k : code W T A)
| Pull (k : option T -> code W T A).
Arguments Done {W T A}. Arguments Throw {W T A}. Arguments Look {W T A}. Arguments Change {W T A}. Arguments Pull {W T A}.

(** stream.go:46-47 and what else may be in Stream.ops. *)
Inductive rop (W T : Type) : Type :=
| RPred (p : T -> code W T bool)
| RSkip (n : Z)
| RLimit (n : Z)
| RMap (f : T -> code W T T)
| RPeek (c : T -> code W T unit).
Arguments RPred {W T}. Arguments RSkip {W T}. Arguments RLimit {W T}. Arguments RMap {W T}. Arguments RPeek {W T}.

(** stream.go:49-57 Stream, with its source and the world.  [alive] is
    src != nil.  [array] is the array that s.ops is a slice of: the loops over
    s.ops that are running when clear sets s.ops to nil keep it.  All of it is
    in s.ops as long as the stream is alive; after clear s.ops is empty. *)
Record rstream (S W T : Type) : Type := mkR { alive : bool; array : list (rop W T); origin : S; world : W }.
Arguments mkR {S W T}. Arguments alive {S W T}. Arguments array {S W T}. Arguments origin {S W T}. Arguments world {S W T}.

Section Stream.
  Context {S W T : Type} (src : source S W T).
  Local Notation st := (rstream S W T).

  Definition pull : X st (option T) := fun s =>
    let '(r, (z, w)) := sNext src (origin s, world s) in (r, mkR (alive s) (array s) z w).
  Definition change (w : W) : X st unit := fun s => (Ok tt, mkR (alive s) (array s) (origin s) w).
  (** stream.go:157-160 clear. *)
  Definition rclear : X st unit := fun s => (Ok tt, mkR false (array s) (origin s) (world s)).
  (** s.ops[i] = o: an index out of range after clear. *)
  Definition store (i : nat) (o : rop W T) : X st unit := fun s =>
    if alive s then (Ok tt, mkR true (upd (array s) i o) (origin s) (world s))
    else (Panic "index out of range", s).

  (** Running a callback; stream.go:67-103 Next, its loop over the source, and
      the loop over the first [n] elements of [array] from index [i] on, for the
      element [v] (line 73: range takes the length of s.ops once). *)
  Fixpoint run (A : Type) (fuel : nat) (c : code W T A) : X st A :=
    match fuel with
    | O => fun s => (Diverge, s)
    | Datatypes.S fuel =>
        match c with
        | Done a => xret a
        | Throw e => xpanic e
        | Look k => 's <- xget ;; run A fuel (k (world s))
        | Change w k => change w ;; run A fuel k
        | Pull k => v <- rnext fuel ;; run A fuel (k v)
        end
    end
  with rnext (fuel : nat) : X st (option T) :=
    match fuel with
    | O => fun s => (Diverge, s)
    | Datatypes.S fuel =>
        's <- xget ;;
        if alive s then rloop fuel else rclear ;; xret None
    end
  with rloop (fuel : nat) : X st (option T) :=
    match fuel with
    | O => fun s => (Diverge, s)
    | Datatypes.S fuel =>
        's <- xget ;;
        if negb (alive s) then xpanic "invalid memory address or nil pointer dereference" else
        v <- pull ;;
        match v with
        | None => rclear ;; xret None
        | Some v =>
            r <- rstages fuel (List.length (array s)) 0 v ;;
            match r with
            | Emit v => xret (Some v)
            | Reject => rloop fuel
            | Stop => rclear ;; xret None
            end
        end
    end
  with rstages (fuel n i : nat) (v : T) : X st (verdict T) :=
    match fuel with
    | O => fun s => (Diverge, s)
    | Datatypes.S fuel =>
        's <- xget ;;
        if (n <=? i)%nat then xret (Emit v) else
        match nth_error (array s) i with
        | None => xpanic "index out of range"
        | Some (RPred p) =>
            b <- run bool fuel (p v) ;;
            if b : bool then rstages fuel n (i + 1) v else xret Reject
        | Some (RSkip k) =>
            if k >? 0 then store i (RSkip (k - 1)) ;; xret Reject
            else rstages fuel n (i + 1) v
        | Some (RLimit k) =>
            if k >? 0 then store i (RLimit (k - 1)) ;; rstages fuel n (i + 1) v
            else xret Stop
        | Some (RMap f) =>
            v' <- run T fuel (f v) ;;
            rstages fuel n (i + 1) v'
        | Some (RPeek c) =>
            run unit fuel (c v) ;;
            rstages fuel n (i + 1) v
        end
    end.
End Stream.
