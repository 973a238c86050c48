(** What Bind should do, in terms of signatures and argument lists only. *)
From Verif Require Import Base XFn_Bind_Model.

Section Spec.
  Context {ty pay : Type} (canConv : value ty pay -> ty -> bool)
          (conv : value ty pay -> ty -> value ty pay).

  (** The highest placeholder number used (0 if none). *)
  Fixpoint highest (args : list (barg ty pay)) : Z :=
    match args with
    | [] => 0
    | APh k :: args' => Z.max k (highest args')
    | _ :: args' => highest args'
    end.

  (** Parameter [i] (from 0) of src, of type [t], when the bound function is
      called with [call]: the bound value converted to [t], the argument named
      by the placeholder, or, beyond the bind arguments, the next argument
      after the highest placeholder. *)
  Definition routed (args : list (barg ty pay)) (call : list (value ty pay)) (i : nat) (t : ty)
    : option (value ty pay) :=
    match nth_error args i with
    | Some (AVal v) => Some (conv v t)
    | Some (APh k) => zget call (k - 1)
    | Some ANil => None
    | None => zget call (highest args + (Z.of_nat i - zlen args))
    end.

  (** The bindings that make sense. *)
  Record bindable (s d : sig ty) (args : list (barg ty pay)) : Prop := {
    ok_outs : outs s = outs d;
    ok_count : zlen args <= zlen (ins s);
    ok_value : forall i v t, nth_error args i = Some (AVal v) -> nth_error (ins s) i = Some t ->
                 canConv v t = true;
    ok_nil : ~ In ANil args;
    ok_range : forall k, In (APh k) args -> 1 <= k <= zlen (ins d);
    ok_type : forall i k t, nth_error args i = Some (APh k) -> nth_error (ins s) i = Some t ->
                 zget (ins d) (k - 1) = Some t;
    ok_rest : forall i t, (List.length args <= i)%nat -> nth_error (ins s) i = Some t ->
                 zget (ins d) (highest args + (Z.of_nat i - zlen args)) = Some t }.
End Spec.

(** ** Messages *)
Local Open Scope string_scope.
Local Open Scope Z_scope.

(** The English ordinal number: 1st, 2nd, 3rd, 4th, ... 11th, 12th, 13th, ... 21st. *)
Definition ordinal (n : Z) : string :=
  let u := n mod 10 in
  let teen := (11 <=? n mod 100) && (n mod 100 <=? 13) in
  let suffix := if teen then "th" else if u =? 1 then "st" else if u =? 2 then "nd"
                else if u =? 3 then "rd" else "th" in
  (decimal n ++ suffix)%string.

Section Messages.
  Context {ty pay : Type} (canConv : value ty pay -> ty -> bool)
          (show : ty -> string) (showFn : sig ty -> string)
          (nth : Z -> string).            (* how positions are written *)
  Local Open Scope string_scope.

  (** A bind argument fits a parameter of type [t]. *)
  Definition fits (d : sig ty) (a : barg ty pay) (t : ty) : Prop :=
    match a with
    | APh k => zget (ins d) (k - 1) = Some t
    | AVal v => canConv v t = true
    | ANil => False
    end.

  (** Why bind argument number [n] does not fit parameter [n] of type [t]. *)
  Inductive unfit (s d : sig ty) (n : Z) (t : ty) : barg ty pay -> string -> Prop :=
  | U_range k : ~ 1 <= k <= zlen (ins d) ->
      unfit s d n t (APh k)
        ("invalid placeholder: dest [" ++ showFn d ++ "] has " ++ decimal (zlen (ins d)) ++
         " inputs but provided Placeholder(" ++ decimal k ++ ") at " ++ nth n ++ " bind argument")
  | U_type k b : zget (ins d) (k - 1) = Some b -> b <> t ->
      unfit s d n t (APh k)
        ("type mismatch: src [" ++ showFn s ++ "] " ++ nth n ++ " input is [" ++ show t ++
         "] but provided [" ++ show b ++ "] via Placeholder(" ++ decimal k ++ ") at " ++ nth n ++ " bind argument")
  | U_value v : canConv v t = false ->
      unfit s d n t (AVal v)
        ("type mismatch: src [" ++ showFn s ++ "] " ++ nth n ++ " input is [" ++ show t ++
         "] but provided [" ++ show (vty v) ++ "] at " ++ nth n ++ " bind argument")
  | U_nil : unfit s d n t ANil "reflect: call of reflect.Value.Type on zero Value".

  (** The first problem of a binding, in the order: kinds of src and Dest, number
      of results, results from the left, number of arguments, arguments from the
      left, number of remaining parameters, remaining parameters from the left. *)
  Inductive first_problem : srcArg ty -> destArg ty -> list (barg ty pay) -> string -> Prop :=
  | FP_nil dest args :
      first_problem SrcNil dest args "reflect: call of reflect.Value.Type on zero Value"
  | FP_src t dest args :
      first_problem (SrcOther t) dest args ("invalid type: src [" ++ show t ++ "] is not a function type")
  | FP_dest s t args :
      first_problem (SrcFunc s) (DestOther t) args ("invalid type: dest [" ++ show t ++ "] is not a function type")
  | FP_nout s d args : zlen (outs s) <> zlen (outs d) ->
      first_problem (SrcFunc s) (DestFunc d) args
        ("incompatible output: src [" ++ showFn s ++ "] has " ++ decimal (zlen (outs s)) ++
         " outputs but dest [" ++ showFn d ++ "] has " ++ decimal (zlen (outs d)))
  | FP_out s d args same a b more more' :
      outs s = (same ++ a :: more)%list -> outs d = (same ++ b :: more')%list ->
      zlen more = zlen more' -> a <> b ->
      first_problem (SrcFunc s) (DestFunc d) args
        ("incompatible output: " ++ nth (zlen same + 1) ++ " output of src [" ++ showFn s ++ "] is [" ++ show a ++
         "] but " ++ nth (zlen same + 1) ++ " output of dest [" ++ showFn d ++ "] is [" ++ show b ++ "]")
  | FP_many s d args : outs s = outs d -> (zlen (ins s) < zlen args)%Z ->
      first_problem (SrcFunc s) (DestFunc d) args
        ("too many arguments: src [" ++ showFn s ++ "] has " ++ decimal (zlen (ins s)) ++
         " inputs but provided " ++ decimal (zlen args) ++ " bind arguments")
  | FP_arg s d good a more ts t ts' text : outs s = outs d ->
      (zlen (good ++ a :: more)%list <= zlen (ins s))%Z ->
      ins s = (ts ++ t :: ts')%list -> Forall2 (fits d) good ts ->
      unfit s d (zlen good + 1) t a text ->
      first_problem (SrcFunc s) (DestFunc d) (good ++ a :: more)%list text
  | FP_few s d args ts served lost : outs s = outs d ->
      ins s = (ts ++ served ++ lost)%list -> Forall2 (fits d) args ts ->
      (highest args + zlen served = zlen (ins d))%Z -> lost <> [] ->
      first_problem (SrcFunc s) (DestFunc d) args
        ("not enough inputs: dest [" ++ showFn d ++ "] needs " ++ decimal (zlen lost) ++
         " more inputs [" ++ String.concat ", " (map show lost) ++ "]")
  | FP_rest s d args ts same a more ds b more' : outs s = outs d ->
      ins s = (ts ++ same ++ a :: more)%list -> Forall2 (fits d) args ts ->
      ins d = (ds ++ same ++ b :: more')%list -> zlen ds = highest args ->
      (zlen more <= zlen more')%Z -> a <> b ->
      first_problem (SrcFunc s) (DestFunc d) args
        ("type mismatch: src [" ++ showFn s ++ "] " ++ nth (zlen args + zlen same + 1) ++ " input is [" ++ show a ++
         "] but provided [" ++ show b ++ "] via " ++ nth (highest args + zlen same + 1) ++
         " dest input [" ++ showFn d ++ "]").
End Messages.
