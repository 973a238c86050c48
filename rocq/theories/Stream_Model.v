(** Model of stream/stream.go, stream/source.go and stream/conv.go.

    The state is the Stream object, the state [S] of its source, and the world
    [W] that callbacks may read and change.  Callbacks do not reach the Stream
    they belong to, nor its source (they could in Go, by capturing it; see
    Stream_Reent_Model for callbacks that call Next, Stream_Grow_Model for
    callbacks that add stages). *)
From Verif Require Import Base Arr Exn Iter_Model.
Local Open Scope exn_scope.
Local Open Scope string_scope.
Local Open Scope list_scope.
Local Open Scope Z_scope.

(** stream.go:17-25, the interface Source.  Where Go returns (value, ok), the
    model returns an option: nobody looks at the value when ok is false. *)
Record source (S W T : Type) : Type := {
  sNext : X (S * W) (option T);
  sSkip : Z -> X (S * W) Z }.
Arguments sNext {S W T}. Arguments sSkip {S W T}. Arguments Build_source {S W T}.

(** stream.go:46-47 predSkip, predLimit, and what else may be in Stream.ops:
    xfn.Predicate, xfn.UnaryOperator, Consumer. *)
Inductive op (W T : Type) : Type :=
| OPred (p : T -> X W bool)
| OSkip (n : Z)
| OLimit (n : Z)
| OMap (f : T -> X W T)
| OPeek (c : T -> X W unit).
Arguments OPred {W T}. Arguments OSkip {W T}. Arguments OLimit {W T}. Arguments OMap {W T}. Arguments OPeek {W T}.

(** stream.go:49-57 Stream.  [live] is src != nil; ops is a list (buf is only
    the memory it first lives in). *)
Record stream (W T : Type) : Type := mkStream { live : bool; ops : list (op W T); hasPred : bool }.
Arguments mkStream {W T}. Arguments live {W T}. Arguments ops {W T}. Arguments hasPred {W T}.

(** stream.go:59-63 New. *)
Definition New {W T} : stream W T := mkStream true [] false.

(** What became of an element in the loop over the ops. *)
Inductive verdict (T : Type) : Type := Emit (v : T) | Reject | Stop.
Arguments Emit {T}. Arguments Reject {T}. Arguments Stop {T}.

Section Stream.
  Context {S W T : Type} (src : source S W T).
  Local Notation st := (stream W T * (S * W))%type.

  (** Running a callback, and the source, on their parts of the state. *)
  Definition onWorld {A Y} (m : X W A) : X (Y * W) A := fun '(y, w) =>
    let '(r, w') := m w in (r, (y, w')).
  Definition onSource {A} (m : X (S * W) A) : X st A := fun '(s, z) =>
    let '(r, z') := m z in (r, (s, z')).
  Definition onCallback {A} (m : X W A) : X st A := onSource (onWorld m).

  (** stream.go:73-97, the loop over s.ops; [done] are the ops before [todo]. *)
  Fixpoint stages (done todo : list (op W T)) (v : T) : X (list (op W T) * W) (verdict T) :=
    match todo with
    | [] => xret (Emit v)
    | o :: rest =>
        match o with
        | OPred p =>
            b <- onWorld (p v) ;;
            if b : bool then stages (done ++ [o]) rest v else xret Reject
        | OSkip n =>
            if n >? 0 then
              'opsw <- xget ;;
              xput (done ++ OSkip (n - 1) :: rest, snd opsw) ;;
              xret Reject
            else stages (done ++ [o]) rest v
        | OLimit n =>
            if n >? 0 then
              'opsw <- xget ;;
              xput (done ++ OLimit (n - 1) :: rest, snd opsw) ;;
              stages (done ++ [OLimit (n - 1)]) rest v
            else xret Stop
        | OMap f =>
            v' <- onWorld (f v) ;;
            stages (done ++ [o]) rest v'
        | OPeek c =>
            onWorld (c v) ;;
            stages (done ++ [o]) rest v
        end
    end.
  Definition runStages (v : T) : X st (verdict T) := fun '(s, (z, w)) =>
    let '(r, (ops', w')) := stages [] (ops s) v (ops s, w) in
    (r, (mkStream (live s) ops' (hasPred s), (z, w'))).

  (** stream.go:157-160 clear. *)
  Definition clear : X st unit := fun '(s, z) => (Ok tt, (mkStream false [] (hasPred s), z)).

  (** stream.go:71-102, the loop over the source and its end. *)
  Fixpoint nextLoop (fuel : nat) : X st (option T) :=
    match fuel with
    | O => fun s => (Diverge, s)
    | Datatypes.S fuel =>
        v <- onSource (sNext src) ;;
        match v with
        | None => clear ;; xret None
        | Some v =>
            r <- runStages v ;;
            match r with
            | Emit v => xret (Some v)
            | Reject => nextLoop fuel
            | Stop => clear ;; xret None
            end
        end
    end.

  (** stream.go:67-103 Next; 162-164 empty. *)
  Definition Next_ (fuel : nat) : X st (option T) :=
    's <- xget ;;
    if live (fst s) then nextLoop fuel else clear ;; xret None.

  Definition addOp (o : op W T) (pred : bool) : X st unit := fun '(s, z) =>
    (Ok tt, (mkStream (live s) (ops s ++ [o]) (hasPred s || pred), z)).

  (** stream.go:112-115 Map, 117-121 Filter, 148-151 Peek. *)
  Definition Map_ (f : T -> X W T) : X st unit := addOp (OMap f) false.
  Definition Filter (p : T -> X W bool) : X st unit := addOp (OPred p) true.
  Definition Peek (c : T -> X W unit) : X st unit := addOp (OPeek c) false.

  (** stream.go:123-137 Skip; calling a method of the nil src panics. *)
  Definition Skip (n : Z) : X st unit :=
    if n <? 0 then xpanic "Stream.Skip: negative value" else
    if n =? 0 then xret tt else
    's <- xget ;;
    if negb (hasPred (fst s)) then
      if live (fst s) then onSource (sSkip src n) ;; xret tt
      else xpanic "invalid memory address or nil pointer dereference"
    else addOp (OSkip n) true.

  (** stream.go:139-146 Limit. *)
  Definition Limit (n : Z) : X st unit :=
    if n <? 0 then xpanic "Stream.Limit: negative value" else addOp (OLimit n) true.

  (** stream.go:105-108 SkipNext. *)
  Definition SkipNext (n : Z) : X st Z := Skip n ;; xret (-1).

  (** ** Terminal operations: every loop calls Next until it says it is over. *)

  (** stream.go:192-196 Collect. *)
  Fixpoint Collect (fuel : nat) (consumer : T -> X W unit) : X st unit :=
    match fuel with
    | O => fun s => (Diverge, s)
    | Datatypes.S fuel' =>
        v <- Next_ fuel ;;
        match v with
        | None => xret tt
        | Some v => onCallback (consumer v) ;; Collect fuel' consumer
        end
    end.

  (** stream.go:198-205 All. *)
  Fixpoint All (fuel : nat) (predicate : T -> X W bool) : X st bool :=
    match fuel with
    | O => fun s => (Diverge, s)
    | Datatypes.S fuel' =>
        v <- Next_ fuel ;;
        match v with
        | None => xret true
        | Some v =>
            b <- onCallback (predicate v) ;;
            if negb b then xret false else All fuel' predicate
        end
    end.

  (** stream.go:207-214 Any, 216-218 None. *)
  Fixpoint Any (fuel : nat) (predicate : T -> X W bool) : X st bool :=
    match fuel with
    | O => fun s => (Diverge, s)
    | Datatypes.S fuel' =>
        v <- Next_ fuel ;;
        match v with
        | None => xret false
        | Some v =>
            b <- onCallback (predicate v) ;;
            if b : bool then xret true else Any fuel' predicate
        end
    end.
  Definition None_ (fuel : nat) (predicate : T -> X W bool) : X st bool :=
    b <- Any fuel predicate ;; xret (negb b).

  (** stream.go:220-226 Count. *)
  Fixpoint countLoop (fuel : nat) (count : Z) : X st Z :=
    match fuel with
    | O => fun s => (Diverge, s)
    | Datatypes.S fuel' =>
        v <- Next_ fuel ;;
        match v with
        | None => xret count
        | Some _ => countLoop fuel' (count + 1)
        end
    end.
  Definition Count (fuel : nat) : X st Z := countLoop fuel 0.

  (** stream.go:228-234 First. *)
  Definition First (fuel : nat) : X st T :=
    v <- Next_ fuel ;;
    match v with
    | None => xpanic "Stream.First: stream is empty"
    | Some v => xret v
    end.

  (** stream.go:236-242 Slice. *)
  Fixpoint sliceLoop (fuel : nat) (r : list T) : X st (list T) :=
    match fuel with
    | O => fun s => (Diverge, s)
    | Datatypes.S fuel' =>
        v <- Next_ fuel ;;
        match v with
        | None => xret r
        | Some v => sliceLoop fuel' (r ++ [v])
        end
    end.
  Definition Slice (fuel : nat) : X st (list T) := sliceLoop fuel [].

  (** stream.go:270-276 the function Reduce, and 244-250 the method, which is
      this with A = T. *)
  Fixpoint Reduce {A} (fuel : nat) (r : A) (accumulator : A -> T -> X W A) : X st A :=
    match fuel with
    | O => fun s => (Diverge, s)
    | Datatypes.S fuel' =>
        v <- Next_ fuel ;;
        match v with
        | None => xret r
        | Some v =>
            r' <- onCallback (accumulator r v) ;;
            Reduce fuel' r' accumulator
        end
    end.

  (** stream.go:252-268 String.  [name] is the name of the type T and [sprint]
      is fmt.Sprint; the Collect loop with its local variables is written out. *)
  Fixpoint stringLoop (fuel : nat) (sprint : T -> string) (first : bool) (sb : string) : X st string :=
    match fuel with
    | O => fun s => (Diverge, s)
    | Datatypes.S fuel' =>
        v <- Next_ fuel ;;
        match v with
        | None => xret sb
        | Some v =>
            let sb := if first then sb else (sb ++ ", ")%string in
            stringLoop fuel' sprint false (sb ++ sprint v)%string
        end
    end.
  Definition String_ (fuel : nat) (name : string) (sprint : T -> string) : X st string :=
    sb <- stringLoop fuel sprint true ("Stream[" ++ name ++ "]{")%string ;;
    xret (sb ++ "}")%string.
End Stream.

(** stream.go:27-43 typeTransformerStream; 153-155 the function Map, which makes
    a New stream over it.  The state of this source is the Stream below with
    its own source.  166-188 MapToInt, ... are Map. *)
Definition transformed {S W T R} (src : source S W T) (fuel : nat) (t : T -> X W R)
  : source (stream W T * S) W R :=
  let assoc {A} (m : X (stream W T * (S * W)) A) : X ((stream W T * S) * W) A := fun '((s, z), w) =>
    let '(r, (s', (z', w'))) := m (s, (z, w)) in (r, ((s', z'), w')) in
  {| sNext :=
       old <- assoc (Next_ src fuel) ;;
       match old with
       | None => xret None
       | Some old => v <- onWorld (t old) ;; xret (Some v)
       end;
     sSkip := fun n => assoc (SkipNext src n) |}.

(** ** Sources *)

(** source.go:10-13 sliceSource; its elements are never changed through it, so
    [a] is a value (conv.go:3-9 OfSlice, Of).  The int is 64 bits wide, and
    only its addition in SkipNext can overflow. *)
Definition maxInt : Z := 2 ^ 63 - 1.
Definition wrapInt (x : Z) : Z := (x + 2 ^ 63) mod 2 ^ 64 - 2 ^ 63.

Section SliceSource.
  Context {W T : Type} (a : list T).

  (** source.go:15-23 Next, 25-37 SkipNext.  The state is the index i. *)
  Definition sliceSource : source Z W T := {|
    sNext := fun '(i, w) =>
      if i =? zlen a then (Ok None, (i, w)) else
      match zget a i with
      | Some x => (Ok (Some x), (i + 1, w))
      | None => (Panic "index out of range", (i + 1, w))
      end;
    sSkip := fun n '(i, w) =>
      if n <? 0 then (Panic "sliceSource.SkipNext: negative value", (i, w)) else
      if wrapInt (i + n) >=? zlen a then (Ok (zlen a - i), (zlen a, w))
      else (Ok n, (wrapInt (i + n), w)) |}.
End SliceSource.

(** An integer type: [bits] wide, signed or not. *)
Record inttype : Type := { bits : Z; signed : bool }.
Definition tmin (t : inttype) : Z := if signed t then - 2 ^ (bits t - 1) else 0.
Definition tmax (t : inttype) : Z := if signed t then 2 ^ (bits t - 1) - 1 else 2 ^ bits t - 1.
Definition wrap (t : inttype) (x : Z) : Z := (x - tmin t) mod 2 ^ bits t + tmin t.

Section IntSource.
  Context {W : Type} (t : inttype).

  (** source.go:40-46 intSource; [start] is never read. *)
  Record intSource_ : Type := mkInt { end_ : Z; step : Z; cur : Z; inf : bool }.

  (** source.go:48-55 Next, 57-60 SkipNext. *)
  Definition intSource : source intSource_ W Z := {|
    sNext := fun '(i, w) =>
      if negb (inf i) && ((step i >? 0) && (cur i >? end_ i) || (step i <? 0) && (cur i <? end_ i)) then
        (Ok None, (i, w))
      else (Ok (Some (cur i)), (mkInt (end_ i) (step i) (wrap t (cur i + step i)) (inf i), w));
    sSkip := fun n '(i, w) =>
      (Ok (-1), (mkInt (end_ i) (step i) (wrap t (cur i + wrap t (wrap t n * step i))) (inf i), w)) |}.

  (** source.go:62-73 Range, 75-77 RangeN, 79-89 IntegerSequence: the initial
      state of the source. *)
  Definition Range (start end_ step : Z) : outcome intSource_ :=
    if step =? 0 then Panic "stream.Range: step is 0" else Ok (mkInt end_ step start false).
  Definition RangeN (n : Z) : outcome intSource_ := Range 0 (wrap t (n - 1)) 1.
  Definition IntegerSequence (start step : Z) : outcome intSource_ :=
    if step =? 0 then Panic "stream.IntegerSequence: step is 0" else Ok (mkInt 0 step start true).
End IntSource.

Section Generators.
  Context {G W T : Type}.

  (** source.go:91-100, 116-118 Generator, Generate.  The state of the closure is [G]. *)
  Fixpoint genSkip (g : X (G * W) T) (k : nat) : X (G * W) unit :=
    match k with
    | O => xret tt
    | Datatypes.S k => g ;; genSkip g k
    end.
  Definition generator (g : X (G * W) T) : source G W T := {|
    sNext := v <- g ;; xret (Some v);
    sSkip := fun n => genSkip g (Z.to_nat n) ;; xret n |}.

  (** source.go:102-114, 120-122 BoundedGenerator, BoundedGenerate. *)
  Fixpoint boundedSkip (g : X (G * W) (option T)) (k : nat) (i : Z) : X (G * W) Z :=
    match k with
    | O => xret i
    | Datatypes.S k =>
        v <- g ;;
        match v with
        | None => xret i
        | Some _ => boundedSkip g k (i + 1)
        end
    end.
  Definition boundedGenerator (g : X (G * W) (option T)) : source G W T := {|
    sNext := g;
    sSkip := fun n => boundedSkip g (Z.to_nat n) 0 |}.
End Generators.

Section IteratorSource.
  (** source.go:124-127 iteratorSource over iterators with the methods [o];
      [random]: whether they implement ConstRandomIterator.  The state is cur
      and the heap the iterators read. *)
  Context {St It W T : Type} (o : Iter_Model.ops St It T) (random : bool) (last : It).

  Definition atCur {A} (f : It -> X St A) : X ((It * St) * W) A := fun '((cur, h), w) =>
    let '(r, h') := f cur h in (r, ((cur, h'), w)).
  Definition setCur (cur : It) : X ((It * St) * W) unit := fun '((_, h), w) => (Ok tt, ((cur, h), w)).

  (** source.go:139-146 Next. *)
  Definition itNext : X ((It * St) * W) (option T) :=
    e <- atCur (fun cur => Equal o cur last) ;;
    if e : bool then xret None else
    v <- atCur (Get o) ;;
    n <- atCur (Next o) ;;
    setCur n ;;
    xret (Some v).

  (** source.go:148-163 SkipNext. *)
  Fixpoint itSkip (k : nat) (skipped : Z) : X ((It * St) * W) Z :=
    match k with
    | O => xret skipped
    | Datatypes.S k =>
        v <- itNext ;;
        match v with
        | None => xret skipped
        | Some _ => itSkip k (skipped + 1)
        end
    end.
  Definition iteratorSource : source (It * St) W T := {|
    sNext := itNext;
    sSkip := fun n =>
      if random then
        pe <- atCur (fun _ => Pos o last) ;;
        pc <- atCur (Pos o) ;;
        let skipped := Z.min n (pe - pc) in
        c <- atCur (fun cur => Add o cur skipped) ;;
        setCur c ;;
        xret skipped
      else itSkip (Z.to_nat n) 0 |}.

  (** source.go:129-137 OfRange, OfIterators: the comparison is only there to
      panic for iterators of different containers. *)
  Definition OfIterators (first : It) : X St It :=
    _ <- Equal o first last ;; xret first.
End IteratorSource.
