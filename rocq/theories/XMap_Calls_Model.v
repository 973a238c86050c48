(** Model of ds/xmap/custom.go when the functions handed to NewCustom have a
    state of their own and may panic.  The values are those of XMap_Model. *)
From Verif Require Import Base GoMap Arr XMap_Model Callback.

Section Calls.
  Context {K V U : Type} (zero : V).
  (** The hasher and the comparator of NewCustom (custom.go:15); [U] is what they
      keep between calls, [None] a panic. *)
  Context (hash : K -> U -> option Z * U) (equal : K -> K -> U -> option bool * U).

  (** A call of one of the two functions, with its arguments. *)
  Inductive call : Type := AskHash (k : K) | AskEqual (a b : K).

  (** The map, what the functions keep, and the calls made so far. *)
  Record cst : Type := { cmap : custom K V; user : U; made : list call }.

  Definition ask {A} (c : call) (f : U -> option A * U) : CM cst A := fun s =>
    let '(r, u) := f (user s) in
    (match r with Some a => CRet a | None => CUser "panic in a function of the caller" end,
     {| cmap := cmap s; user := u; made := made s ++ [c] |}).
  Definition askHash (k : K) : CM cst Z := ask (AskHash k) (hash k).
  Definition askEqual (a b : K) : CM cst bool := ask (AskEqual a b) (equal a b).
  Definition getMap : CM cst (custom K V) := fun s => (CRet (cmap s), s).
  Definition putMap (m : custom K V) : CM cst unit := fun s => (CRet tt, {| cmap := m; user := user s; made := made s |}).

  Local Open Scope cb_scope.

  (** The loops at custom.go:37-41, 60-65 and 84-89: the index and the value of
      the first entry with an equal key. *)
  Fixpoint findC (l : list (K * V)) (key : K) (i : nat) : CM cst (option (nat * V)) :=
    match l with
    | [] => cret None
    | (k, v) :: l' =>
        e <- askEqual k key ;;
        if (e : bool) then cret (Some (i, v)) else findC l' key (S i)
    end.

  Definition getC (key : K) : CM cst (V * bool) :=                    (* custom.go:24-43 *)
    h <- askHash key ;;
    m <- getMap ;;
    match gget zeqb (main m) h with
    | None => cret (zero, false)
    | Some (mk, mv) =>
        e <- askEqual mk key ;;
        if (e : bool) then cret (mv, true) else
        m <- getMap ;;
        match ovfGet m h with
        | None => cret (mv, false)
        | Some overflow =>
            f <- findC overflow key 0 ;;
            cret match f with Some (_, v) => (v, true) | None => (mv, false) end
        end
    end.

  (** custom.go:45-67; the receiver is a copy, see XMap_Model.cSet. *)
  Definition setC (key : K) (value : V) : CM cst bool :=
    h <- askHash key ;;
    m <- getMap ;;
    let toMain found := m <- getMap ;;
      putMap {| main := gset zeqb (main m) h (key, value); ovf := ovf m |} ;; cret (negb found) in
    match gget zeqb (main m) h with
    | None => toMain false
    | Some (mk, _) =>
        e <- askEqual mk key ;;
        if (e : bool) then toMain true else
        m <- getMap ;;
        match ovfGet m h with
        | None =>
            match ovf m with
            | None => cret true
            | Some o => putMap {| main := main m; ovf := Some (gset zeqb o h [(key, value)]) |} ;; cret true
            end
        | Some overflow =>
            f <- findC overflow key 0 ;;
            m <- getMap ;;
            let put l := match ovf m with
                         | None => cret tt
                         | Some o => putMap {| main := main m; ovf := Some (gset zeqb o h l) |}
                         end in
            match f with
            | Some (i, _) => put (upd overflow i (key, value)) ;; cret false
            | None => put (overflow ++ [(key, value)]) ;; cret true
            end
        end
    end.

  Definition deleteC (key : K) : CM cst bool :=                       (* custom.go:69-91 *)
    h <- askHash key ;;
    m <- getMap ;;
    match gget zeqb (main m) h with
    | None => cret false
    | Some (mk, _) =>
        e <- askEqual mk key ;;
        if (e : bool) then m <- getMap ;; putMap {| main := gdel zeqb (main m) h; ovf := ovf m |} ;; cret true else
        m <- getMap ;;
        match ovfGet m h with
        | None => cret false
        | Some overflow =>
            f <- findC overflow key 0 ;;
            match f with
            | None => cret false
            | Some (i, _) =>
                let l := List.length overflow in
                let moved := match nth_error overflow (l - 1) with Some e => upd overflow i e | None => overflow end in
                m <- getMap ;;
                match ovf m with
                | None => cret true
                | Some o => putMap {| main := main m; ovf := Some (gset zeqb o h (firstn (l - 1) moved)) |} ;; cret true
                end
            end
        end
    end.

  Definition stepC (o : cOp K V) : CM cst (cRes V) :=
    match o with
    | CSet k v => b <- setC k v ;; cret (CBool b)
    | CDelete k => b <- deleteC k ;; cret (CBool b)
    | CGet k => r <- getC k ;; cret (let '(v, ok) := r in CVal v ok)
    end.

  Definition newC (u : U) : cst := {| cmap := NewCustom; user := u; made := [] |}.

  (** Calls one after the other; the caller recovers from panics.  For each call:
      its outcome and the calls of the two functions it made. *)
  Fixpoint runC (ops : list (cOp K V)) (s : cst) : list (cres (cRes V) * list call) * cst :=
    match ops with
    | [] => ([], s)
    | o :: ops' =>
        let '(r, s') := stepC o {| cmap := cmap s; user := user s; made := [] |} in
        let '(rs, s'') := runC ops' s' in ((r, made s') :: rs, s'')
    end.
End Calls.
Arguments call : clear implicits.
Arguments cst : clear implicits.
