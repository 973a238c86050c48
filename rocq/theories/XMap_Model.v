(** Model of ds/xmap/ops.go, map.go, set.go, arraymap.go and custom.go. *)
From Verif Require Import Base Exn GoMap.
Local Open Scope string_scope.
Local Open Scope list_scope.
Local Open Scope Z_scope.

Section Ops.
  Context {K V : Type} (eqb : K -> K -> bool).

  (** ops.go:3-9 Entries, 11-17 Keys, 19-25 Values; [order] is the order in
      which this range statement meets the entries of the map. *)
  Fixpoint Entries (order : list (K * V)) (entries : list (K * V)) : list (K * V) :=
    match order with
    | [] => entries
    | (k, v) :: order' => Entries order' (entries ++ [(k, v)])
    end.
  Fixpoint Keys (order : list (K * V)) (keys : list K) : list K :=
    match order with
    | [] => keys
    | (k, _) :: order' => Keys order' (keys ++ [k])
    end.
  Fixpoint Values (order : list (K * V)) (values : list V) : list V :=
    match order with
    | [] => values
    | (_, v) :: order' => Values order' (values ++ [v])
    end.

  (** ops.go:27-29 Delete, map.go:34-36. *)
  Definition Delete (m : gomap K V) (key : K) : gomap K V := gdel eqb m key.

  (** ops.go:31-38 Clear.  An entry deleted before being reached is not met; as
      deleting an absent key does nothing, visiting all of [order] is the same. *)
  Fixpoint Clear (order : list (K * V)) (m : gomap K V) : gomap K V :=
    match order with
    | [] => m
    | (k, _) :: order' => Clear order' (gdel eqb m k)
    end.
End Ops.

Section Set_.
  Context {K : Type} (eqb : K -> K -> bool).

  (** The API of Set; SValues and SClear come with the iteration order. *)
  Inductive setOp : Type :=
  | SAdd (k : K) | STryAdd (k : K) | SDelete (k : K) | STryDelete (k : K)
  | SHas (k : K) | SLen | SValues | SClear.
  Inductive setRes : Type := SUnit | SBool (b : bool) | SInt (n : Z) | SList (l : list K).

  (** set.go:9-51, each method in order; [order] as above. *)
  Definition setStep (o : setOp) (order : list (K * unit)) (s : gomap K unit) : setRes * gomap K unit :=
    match o with
    | SAdd k => (SUnit, gset eqb s k tt)                          (* set.go:9-11 *)
    | STryAdd k =>                                                (* set.go:13-19 *)
        match gget eqb s k with
        | Some _ => (SBool false, s)
        | None => (SBool true, gset eqb s k tt)
        end
    | SDelete k => (SUnit, gdel eqb s k)                          (* set.go:21-23 *)
    | STryDelete k =>                                             (* set.go:25-31 *)
        match gget eqb s k with
        | None => (SBool false, s)
        | Some _ => (SBool true, gdel eqb s k)
        end
    | SHas k => (SBool (match gget eqb s k with Some _ => true | None => false end), s)
                                                                  (* set.go:33-36 *)
    | SLen => (SInt (glen s), s)                                  (* set.go:38-40 *)
    | SValues => (SList (Keys order []), s)                       (* set.go:50-52 *)
    | SClear => (SUnit, Clear eqb order s)                        (* set.go:42-44 *)
    end.
End Set_.
Arguments setOp : clear implicits.
Arguments setRes : clear implicits.

(** ** ArrayMap *)
Section ArrayMap.
  Context {K V : Type} (eqb : K -> K -> bool) (zero : V).

  (** arraymap.go:10-14 (a nil pos reads as an empty map, 20-24 lazeInit). *)
  Record amap : Type := { pos : gomap K Z; kv : list (K * V) }.

  Definition amNew : amap := {| pos := []; kv := [] |}.

  Local Open Scope exn_scope.

  (** p.kv[i] *)
  Definition kvAt (i : Z) : X amap (K * V) := fun p =>
    (of_opt idx_msg (zget (kv p) i), p).

  (** arraymap.go:26-29 Has. *)
  Definition amHas (key : K) : X amap bool := fun p =>
    (Ok (match gget eqb (pos p) key with Some _ => true | None => false end), p).

  (** arraymap.go:39-44 TryGet. *)
  Definition amTryGet (key : K) : X amap (V * bool) := fun p =>
    match gget eqb (pos p) key with
    | Some i => (e <- kvAt i ;; xret (snd e, true)) p
    | None => (Ok (zero, false), p)
    end.

  (** arraymap.go:31-37 Get. *)
  Definition amGet (key : K) : X amap V :=
    ' (value, found) <- amTryGet key ;;
    if found : bool then xret value else xpanic "key not found".

  (** arraymap.go:46-51 Set. *)
  Definition amSet (key : K) (value : V) : X amap unit := fun p =>
    let i := zlen (kv p) in
    (Ok tt, {| pos := gset eqb (pos p) key i; kv := kv p ++ [(key, value)] |}).

  (** arraymap.go:53-66 Delete. *)
  Definition amDelete (key : K) : X amap bool :=
    p <- xget ;;
    match gget eqb (pos p) key with
    | None => xret false
    | Some i =>
        let last := zlen (kv p) - 1 in
        (if i =? last then xret tt
         else
           e <- kvAt last ;;
           match zset (kv p) i e with
           | None => xpanic idx_msg
           | Some kv' => xput {| pos := gset eqb (pos p) (fst e) last; kv := kv' |}
           end) ;;
        p <- xget ;;
        xput {| pos := gdel eqb (pos p) key; kv := firstn (Z.to_nat last) (kv p) |} ;;
        xret true
    end.

  (** arraymap.go:88-91 Clear ([order]: iteration order over pos). *)
  Definition amClear (order : list (K * Z)) : X amap unit := fun p =>
    (Ok tt, {| pos := Clear eqb order (pos p); kv := [] |}).

  Inductive amOp : Type :=
  | ASet (k : K) (v : V) | ADelete (k : K) | AClear
  | AHas (k : K) | ATryGet (k : K) | AGet (k : K) | ALen | AEmpty
  | AAt (i : Z) | AValueAt (i : Z) | AKeyAt (i : Z).
  Inductive amRes : Type :=
  | AUnit | ABool (b : bool) | AVal (v : V) | AOpt (v : V) (ok : bool) | AInt (n : Z)
  | AEntry (e : K * V) | AKey (k : K).

  (** [order]: iteration order over pos, used by Clear. *)
  Definition amStep (o : amOp) (order : list (K * Z)) : X amap amRes :=
    match o with
    | ASet k v => amSet k v ;; xret AUnit
    | ADelete k => b <- amDelete k ;; xret (ABool b)
    | AClear => amClear order ;; xret AUnit
    | AHas k => b <- amHas k ;; xret (ABool b)
    | ATryGet k => ' (v, ok) <- amTryGet k ;; xret (AOpt v ok)
    | AGet k => v <- amGet k ;; xret (AVal v)
    | ALen => p <- xget ;; xret (AInt (zlen (kv p)))             (* arraymap.go:68-70 *)
    | AEmpty => p <- xget ;; xret (ABool (zlen (kv p) =? 0))     (* arraymap.go:72-74 *)
    | AAt i => e <- kvAt i ;; xret (AEntry e)                    (* arraymap.go:76-78 *)
    | AValueAt i => e <- kvAt i ;; xret (AVal (snd e))           (* arraymap.go:80-82 *)
    | AKeyAt i => e <- kvAt i ;; xret (AKey (fst e))             (* arraymap.go:84-86 *)
    end.
End ArrayMap.
Arguments amap : clear implicits.
Arguments amOp : clear implicits.
Arguments amRes : clear implicits.

(** ** Custom *)
Section Custom.
  Context {K V : Type} (hash : K -> Z) (equal : K -> K -> bool) (zero : V).

  Definition zeqb : Z -> Z -> bool := Z.eqb.

  (** custom.go:8-13.  [ovf = None] is the nil map. *)
  Record custom : Type := {
    main : gomap Z (K * V);
    ovf : option (gomap Z (list (K * V))) }.

  (** custom.go:15-22 NewCustom. *)
  Definition NewCustom : custom := {| main := []; ovf := None |}.

  Definition ovfGet (m : custom) (h : Z) : option (list (K * V)) :=
    match ovf m with None => None | Some o => gget zeqb o h end.

  Fixpoint findIn (l : list (K * V)) (key : K) (i : nat) : option (nat * V) :=
    match l with
    | [] => None
    | (k, v) :: l' => if equal k key then Some (i, v) else findIn l' key (S i)
    end.

  (** custom.go:24-43 Get.  (On a miss the value is the zero value or that of
      the colliding main entry.) *)
  Definition cGet (key : K) (m : custom) : V * bool :=
    let h := hash key in
    match gget zeqb (main m) h with
    | None => (zero, false)
    | Some (mk, mv) =>
        if equal mk key then (mv, true) else
        match ovfGet m h with
        | None => (mv, false)
        | Some overflow =>
            match findIn overflow key 0 with
            | Some (_, v) => (v, true)
            | None => (mv, false)
            end
        end
    end.

  (** custom.go:45-67 Set.  The receiver is a copy: [m.main] is a map shared
      with the caller, and so is a non-nil [m.ovf], but the assignment
      [m.ovf = map...{}] at line 55 only changes the copy, so the caller keeps
      a nil ovf. *)
  Definition cSet (key : K) (value : V) (m : custom) : bool * custom :=
    let h := hash key in
    let toMain found :=
      (negb found, {| main := gset zeqb (main m) h (key, value); ovf := ovf m |}) in
    let toOvf :=
      match ovfGet m h with
      | None =>
          (true, match ovf m with
                 | None => m    (* the new map is lost with the copy *)
                 | Some o => {| main := main m; ovf := Some (gset zeqb o h [(key, value)]) |}
                 end)
      | Some overflow =>
          match findIn overflow key 0 with
          | Some (i, _) =>
              (false, {| main := main m;
                         ovf := match ovf m with
                                | None => None
                                | Some o => Some (gset zeqb o h (upd overflow i (key, value)))
                                end |})
          | None =>
              (true, {| main := main m;
                        ovf := match ovf m with
                               | None => None
                               | Some o => Some (gset zeqb o h (overflow ++ [(key, value)]))
                               end |})
          end
      end in
    match gget zeqb (main m) h with
    | None => toMain false
    | Some (mk, _) => if equal mk key then toMain true else toOvf
    end.

  (** custom.go:69-91 Delete; xslice.UnorderedDelete moves the last element into
      the hole (ds/xslice/ops.go). *)
  Definition cDelete (key : K) (m : custom) : bool * custom :=
    let h := hash key in
    match gget zeqb (main m) h with
    | None => (false, m)
    | Some (mk, _) =>
        if equal mk key then (true, {| main := gdel zeqb (main m) h; ovf := ovf m |}) else
        match ovfGet m h with
        | None => (false, m)
        | Some overflow =>
            match findIn overflow key 0 with
            | None => (false, m)
            | Some (i, _) =>
                let l := List.length overflow in
                let moved := match nth_error overflow (l - 1) with
                             | Some e => upd overflow i e | None => overflow end in
                (true, {| main := main m;
                          ovf := match ovf m with
                                 | None => None
                                 | Some o => Some (gset zeqb o h (firstn (l - 1) moved))
                                 end |})
            end
        end
    end.

  Inductive cOp : Type := CSet (k : K) (v : V) | CDelete (k : K) | CGet (k : K).
  Inductive cRes : Type := CBool (b : bool) | CVal (v : V) (ok : bool).

  Definition cStep (o : cOp) (m : custom) : cRes * custom :=
    match o with
    | CSet k v => let '(b, m') := cSet k v m in (CBool b, m')
    | CDelete k => let '(b, m') := cDelete k m in (CBool b, m')
    | CGet k => let '(v, ok) := cGet k m in (CVal v ok, m)
    end.

  Fixpoint cRun (ops : list cOp) (m : custom) : list cRes * custom :=
    match ops with
    | [] => ([], m)
    | o :: ops' => let '(r, m') := cStep o m in
                   let '(rs, m'') := cRun ops' m' in (r :: rs, m'')
    end.
End Custom.
Arguments custom : clear implicits.
Arguments cOp : clear implicits.
Arguments cRes : clear implicits.
