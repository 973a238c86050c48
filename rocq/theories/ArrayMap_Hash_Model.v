(** Model of ds/xmap/arraymap.go for key types that have values that cannot be
    hashed: interface types, whose dynamic type may be a slice, a map or a
    function.  Using such a key with the index map panics. *)
From Verif Require Import Base Exn GoMap XMap_Model.
Local Open Scope exn_scope.
Local Open Scope string_scope.
Local Open Scope list_scope.
Local Open Scope Z_scope.

Section ArrayMap.
  Context {K V : Type} (eqb : K -> K -> bool) (hashable : K -> bool) (zero : V).
  Notation amap := (@amap K V).

  Definition hash (k : K) : X amap unit := if hashable k then xret tt else xpanic "hash of unhashable type".

  (** arraymap.go:26-29 Has. *)
  Definition hHas (key : K) : X amap bool := hash key ;; amHas eqb key.

  (** arraymap.go:39-44 TryGet. *)
  Definition hTryGet (key : K) : X amap (V * bool) :=
    hash key ;; p <- xget ;;
    match gget eqb (pos p) key with
    | Some i => e <- kvAt i ;; xret (snd e, true)
    | None => xret (zero, false)
    end.

  (** arraymap.go:31-37 Get. *)
  Definition hGet (key : K) : X amap V :=
    ' (value, found) <- hTryGet key ;;
    if found : bool then xret value else xpanic "key not found".

  (** arraymap.go:46-51 Set: the entry is appended before the index is written. *)
  Definition hSet (key : K) (value : V) : X amap unit :=
    p <- xget ;;
    let i := zlen (kv p) in
    xput {| pos := pos p; kv := kv p ++ [(key, value)] |} ;;
    hash key ;;
    p <- xget ;;
    xput {| pos := gset eqb (pos p) key i; kv := kv p |}.

  (** arraymap.go:53-66 Delete: the last entry is moved before its index is
      written. *)
  Definition hDelete (key : K) : X amap bool :=
    hash key ;;
    p <- xget ;;
    match gget eqb (pos p) key with
    | None => xret false
    | Some i =>
        let last := zlen (kv p) - 1 in
        (if i =? last then xret tt
         else
           e <- kvAt last ;;
           match zset (kv p) i e with
           | None => xpanic idx_msg
           | Some kv' =>
               xput {| pos := pos p; kv := kv' |} ;;
               hash (fst e) ;;
               xput {| pos := gset eqb (pos p) (fst e) last; kv := kv' |}
           end) ;;
        p <- xget ;;
        xput {| pos := gdel eqb (pos p) key; kv := firstn (Z.to_nat last) (kv p) |} ;;
        xret true
    end.

  (** The calls as in [amStep]; those without a key are the same. *)
  Definition hStep (o : amOp K V) (order : list (K * Z)) : X amap (amRes K V) :=
    match o with
    | ASet k v => hSet k v ;; xret AUnit
    | ADelete k => b <- hDelete k ;; xret (ABool b)
    | AHas k => b <- hHas k ;; xret (ABool b)
    | ATryGet k => ' (v, ok) <- hTryGet k ;; xret (AOpt v ok)
    | AGet k => v <- hGet k ;; xret (AVal v)
    | _ => amStep eqb zero o order
    end.
End ArrayMap.
