(** Model of xfn/bind.go. *)
From Coq Require Import DecimalString DecimalZ.
From Verif Require Import Base Exn.
Local Open Scope string_scope.
Local Open Scope list_scope.
Local Open Scope Z_scope.

(** fmt of an int: its decimal digits. *)
Definition decimal (n : Z) : string := NilZero.string_of_int (Z.to_int n).

(** bind.go:14-16 Placeholder.String. *)
Definition PlaceholderString (p : Z) : string := ("Placeholder(" ++ decimal p ++ ")")%string.

(** bind.go:18-23 P1 .. P4, 25-30 P. *)
Definition P1 : Z := 1.
Definition P2 : Z := 2.
Definition P3 : Z := 3.
Definition P4 : Z := 4.
Definition P (i : Z) : outcome Z := if i <? 1 then Panic "invalid index" else Ok i.

(** bind.go:37-48 _ith; Go's % is [Z.rem]. *)
Definition ith (i : Z) : string :=
  let lastDigit := Z.rem i 10 in
  if lastDigit =? 1 then (decimal i ++ "st")%string
  else if lastDigit =? 2 then (decimal i ++ "nd")%string
  else if lastDigit =? 3 then (decimal i ++ "rd")%string
  else (decimal i ++ "th")%string.

Section Bind.
  (** Go types with their identity test, and values: a type and a payload.
      Parameters of reflect: CanConvert, Convert, AssignableTo, Elem of a slice
      type, and the building of a slice for variadic arguments. *)
  Context {ty pay : Type} (ty_eqb : ty -> ty -> bool).

  Record value : Type := { vty : ty; vpay : pay }.

  Variables (canConv : value -> ty -> bool) (conv : value -> ty -> value)
            (assignable : ty -> ty -> bool) (elem : ty -> ty)
            (mkslice : ty -> list value -> value).

  (** A function type: parameters (a variadic one has its slice type last), results. *)
  Record sig : Type := { ins : list ty; outs : list ty; variadic : bool }.

  (** What can be passed as src (nil interface, a non-function, a function) and as Dest. *)
  Inductive srcArg := SrcNil | SrcOther (t : ty) | SrcFunc (s : sig).
  Inductive destArg := DestOther (t : ty) | DestFunc (s : sig).

  (** reflect.Type.String, of types and of function types. *)
  Variables (show : ty -> string) (showFn : sig -> string).

  (** A bind argument: bind.go:12 Placeholder, a value, or nil. *)
  Inductive barg := APh (k : Z) | AVal (v : value) | ANil.

  (** bind.go:32-35 phInfo. *)
  Record phInfo : Type := { fromArg : Z; toArg : Z }.

  (** The variables captured by the closure of bind.go:131. *)
  Record bound : Type := {
    b_src : sig; values : list (option value); placeholders : list phInfo }.

  Local Open Scope out_scope.

  Definition typeAt (l : list ty) (i : Z) : outcome ty := of_opt idx_msg (zget l i).

  (** bind.go:65-71: the loop over output types, from index [i] on the rest lists. *)
  Fixpoint sameOuts (src dest : sig) (i : Z) (so do_ : list ty) : outcome unit :=
    match so, do_ with
    | a :: so', b :: do' =>
        if ty_eqb a b then sameOuts src dest (i + 1) so' do'
        else Panic ("incompatible output: " ++ ith (i + 1) ++ " output of src [" ++ showFn src
                    ++ "] is [" ++ show a ++ "] but " ++ ith (i + 1) ++ " output of dest ["
                    ++ showFn dest ++ "] is [" ++ show b ++ "]")
    | [], _ => Ok tt
    | _, [] => Panic idx_msg
    end.

  (** bind.go:83-107: the loop over the bind arguments. *)
  Fixpoint argLoop (src dest : sig) (args : list barg) (i : Z)
           (vals : list (option value)) (phs : list phInfo) (destIdx : Z)
    : outcome (list (option value) * list phInfo * Z) :=
    match args with
    | [] => Ok (vals, phs, destIdx)
    | APh k :: args' =>
        let destPH := k - 1 in
        if (destPH <? 0) || (zlen (ins dest) <=? destPH)
        then Panic ("invalid placeholder: dest [" ++ showFn dest ++ "] has " ++ decimal (zlen (ins dest))
                    ++ " inputs but provided " ++ PlaceholderString k ++ " at " ++ ith (i + 1)
                    ++ " bind argument") else
        a <- typeAt (ins src) i ;;
        b <- typeAt (ins dest) destPH ;;
        if negb (ty_eqb a b)
        then Panic ("type mismatch: src [" ++ showFn src ++ "] " ++ ith (i + 1) ++ " input is ["
                    ++ show a ++ "] but provided [" ++ show b ++ "] via " ++ PlaceholderString k
                    ++ " at " ++ ith (i + 1) ++ " bind argument") else
        argLoop src dest args' (i + 1) vals
                (phs ++ [{| fromArg := destPH; toArg := i |}])%list (Z.max destIdx (destPH + 1))
    | AVal v :: args' =>
        t <- typeAt (ins src) i ;;
        if negb (canConv v t)
        then Panic ("type mismatch: src [" ++ showFn src ++ "] " ++ ith (i + 1) ++ " input is ["
                    ++ show t ++ "] but provided [" ++ show (vty v) ++ "] at " ++ ith (i + 1)
                    ++ " bind argument") else
        vals' <- of_opt idx_msg (zset vals i (Some (conv v t))) ;;
        argLoop src dest args' (i + 1) vals' phs destIdx
    | ANil :: _ => Panic "reflect: call of reflect.Value.Type on zero Value"
    end.

  (** bind.go:113-118: the names of parameters [i .. srcIn-1], [n] of them. *)
  Fixpoint missingNames (src : sig) (srcIn : Z) (n : nat) (i : Z) (sb : string) : outcome string :=
    match n with
    | O => Ok sb
    | S n' =>
        t <- typeAt (ins src) i ;;
        let sb := (sb ++ show t)%string in
        let sb := if i <? srcIn - 1 then (sb ++ ", ")%string else sb in
        missingNames src srcIn n' (i + 1) sb
    end.

  (** bind.go:122-130: [n] more parameters of src, from index [i]. *)
  Fixpoint restLoop (src dest : sig) (n : nat) (i : Z) (phs : list phInfo) (destIdx : Z)
    : outcome (list phInfo) :=
    match n with
    | O => Ok phs
    | S n' =>
        a <- typeAt (ins src) i ;;
        b <- typeAt (ins dest) destIdx ;;
        if negb (ty_eqb a b)
        then Panic ("type mismatch: src [" ++ showFn src ++ "] " ++ ith (i + 1) ++ " input is ["
                    ++ show a ++ "] but provided [" ++ show b ++ "] via " ++ ith (destIdx + 1)
                    ++ " dest input [" ++ showFn dest ++ "]") else
        restLoop src dest n' (i + 1) (phs ++ [{| fromArg := destIdx; toArg := i |}])%list (destIdx + 1)
    end.

  (** bind.go:50-139 Bind. *)
  Definition Bind (src : srcArg) (dest : destArg) (args : list barg) : outcome bound :=
    match src with
    | SrcNil => Panic "reflect: call of reflect.Value.Type on zero Value"
    | SrcOther t => Panic ("invalid type: src [" ++ show t ++ "] is not a function type")
    | SrcFunc s =>
    match dest with
    | DestOther t => Panic ("invalid type: dest [" ++ show t ++ "] is not a function type")
    | DestFunc d =>
        if negb (zlen (outs s) =? zlen (outs d))
        then Panic ("incompatible output: src [" ++ showFn s ++ "] has " ++ decimal (zlen (outs s))
                    ++ " outputs but dest [" ++ showFn d ++ "] has " ++ decimal (zlen (outs d))) else
        _ <- sameOuts s d 0 (outs s) (outs d) ;;
        let srcIn := zlen (ins s) in
        let destIn := zlen (ins d) in
        if srcIn <? zlen args
        then Panic ("too many arguments: src [" ++ showFn s ++ "] has " ++ decimal srcIn
                    ++ " inputs but provided " ++ decimal (zlen args) ++ " bind arguments") else
        ' (vals, phs, destIdx) <- argLoop s d args 0 (repeat None (List.length (ins s))) [] 0 ;;
        let need := srcIn - zlen args in
        let have := destIn - destIdx in
        if have <? need then
          let missing := need - have in
          sb <- missingNames s srcIn (Z.to_nat missing) (srcIn - missing) "" ;;
          Panic ("not enough inputs: dest [" ++ showFn d ++ "] needs " ++ decimal missing
                 ++ " more inputs [" ++ sb ++ "]")
        else
        phs' <- restLoop s d (Z.to_nat need) (zlen args) phs destIdx ;;
        Ok {| b_src := s; values := vals; placeholders := phs' |}
    end
    end.

  (** bind.go:133-135. *)
  Fixpoint fill (phs : list phInfo) (call : list value) (cv : list (option value))
    : outcome (list (option value)) :=
    match phs with
    | [] => Ok cv
    | p :: phs' =>
        v <- of_opt idx_msg (zget call (fromArg p)) ;;
        cv' <- of_opt idx_msg (zset cv (toArg p) (Some v)) ;;
        fill phs' call cv'
    end.

  (** Passing one value to a parameter of type [t] (reflect.Value.Call). *)
  Definition assignTo (v : option value) (t : ty) : outcome value :=
    match v with
    | None => Panic "reflect: Call using zero Value argument"
    | Some v => if ty_eqb (vty v) t then Ok v
                else if assignable (vty v) t then Ok {| vty := t; vpay := vpay v |}
                else Panic "reflect: Call using wrong type"
    end.

  Fixpoint assignAll (vs : list (option value)) (ts : list ty) : outcome (list value) :=
    match vs, ts with
    | [], [] => Ok []
    | v :: vs', t :: ts' => x <- assignTo v t ;; xs <- assignAll vs' ts' ;; Ok (x :: xs)
    | [], _ => Panic "reflect: Call with too few input arguments"
    | _, [] => Panic "reflect: Call with too many input arguments"
    end.

  (** reflect.Value.Call: the arguments the function body receives.  For a
      variadic function the values from the last parameter on are the elements
      of a fresh slice. *)
  Definition reflectCall (s : sig) (vs : list (option value)) : outcome (list value) :=
    if variadic s then
      let n := (List.length (ins s) - 1)%nat in
      fixed <- assignAll (firstn n vs) (firstn n (ins s)) ;;
      st <- typeAt (ins s) (Z.of_nat n) ;;
      more <- assignAll (skipn n vs) (repeat (elem st) (List.length (skipn n vs))) ;;
      Ok (fixed ++ [mkslice st more])
    else assignAll vs (ins s).

  (** bind.go:131-137: one call of the bound function with [call].  The closure
      variables are its state; the result is what src receives. *)
  Definition callBound (call : list value) : X bound (list value) := fun b =>
    (* callValues is a fresh copy of values *)
    let callValues := values b in
    (cv <- fill (placeholders b) call callValues ;;
     reflectCall (b_src b) cv, b).
End Bind.
Arguments value : clear implicits.
Arguments sig : clear implicits.
Arguments srcArg : clear implicits.
Arguments destArg : clear implicits.
Arguments barg : clear implicits.
Arguments bound : clear implicits.
