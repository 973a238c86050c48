(** What a Custom may ask of its hash and equality functions, and what it then
    does. *)
From Verif Require Import Base GoMap XMap_Model XMap_Calls_Model Callback.

Section CallsSpec.
  Context {K V U : Type} (zero : V) (hash : K -> U -> option Z * U) (equal : K -> K -> U -> option bool * U).

  Definition keyOfOp (o : cOp K V) : K := match o with CSet k _ | CDelete k | CGet k => k end.

  (** A place for one entry under every hash. *)
  Definition places : Type := Z -> option (K * V).
  Definition put (p : places) (h : Z) (e : option (K * V)) : places := fun h' => if Z.eqb h h' then e else p h'.
  Definition samePlaces (p q : places) : Prop := forall h, p h = q h.

  (** No entry has the hash of the key. *)
  Definition answerFree (o : cOp K V) (h : Z) (p : places) (r : cRes V) (p' : places) : Prop :=
    match o with
    | CSet k v => r = CBool true /\ samePlaces p' (put p h (Some (k, v)))
    | CDelete _ => r = CBool false /\ samePlaces p' p
    | CGet _ => r = CVal zero false /\ samePlaces p' p
    end.
  (** The entry with that hash, with value [mv], has an equal key. *)
  Definition answerHit (o : cOp K V) (h : Z) (mv : V) (p : places) (r : cRes V) (p' : places) : Prop :=
    match o with
    | CSet k v => r = CBool false /\ samePlaces p' (put p h (Some (k, v)))
    | CDelete _ => r = CBool true /\ samePlaces p' (put p h None)
    | CGet _ => r = CVal mv true /\ samePlaces p' p
    end.
  (** It has another key: nothing changes, Set answers true all the same. *)
  Definition answerOther (o : cOp K V) (mv : V) (p : places) (r : cRes V) (p' : places) : Prop :=
    r = match o with CSet _ _ => CBool true | CDelete _ => CBool false | CGet _ => CVal mv false end /\ samePlaces p' p.

  (** Call [o], with the functions' state [u], on a map with the entries [p]:
      [out] is its outcome, [calls] the calls it makes, [p'] and [u'] what it
      leaves. *)
  Definition oneCall (o : cOp K V) (p : places) (u : U) (out : cres (cRes V)) (calls : list (call K)) (p' : places) (u' : U) : Prop :=
    let k := keyOfOp o in
    match hash k u with
    | (None, u1) => calls = [AskHash k] /\ u' = u1 /\ (exists e, out = CUser e) /\ samePlaces p' p
    | (Some h, u1) =>
        match p h with
        | None => calls = [AskHash k] /\ u' = u1 /\ exists r, out = CRet r /\ answerFree o h p r p'
        | Some (mk, mv) =>
            calls = [AskHash k; AskEqual mk k] /\
            match equal mk k u1 with
            | (None, u2) => u' = u2 /\ (exists e, out = CUser e) /\ samePlaces p' p
            | (Some true, u2) => u' = u2 /\ exists r, out = CRet r /\ answerHit o h mv p r p'
            | (Some false, u2) => u' = u2 /\ exists r, out = CRet r /\ answerOther o mv p r p'
            end
        end
    end.

  (** The same for calls one after the other. *)
  Inductive allCalls : places -> U -> list (cOp K V) -> list (cres (cRes V) * list (call K)) -> Prop :=
  | ac_nil p u : allCalls p u [] []
  | ac_cons p u o ops out calls p' u' outs : oneCall o p u out calls p' u' -> allCalls p' u' ops outs ->
      allCalls p u (o :: ops) ((out, calls) :: outs).
End CallsSpec.
