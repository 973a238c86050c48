(** C123: what a Custom asks of its hash and equality functions. *)
From Verif Require Import Base GoMap XMap_Model XMap_Calls_Model XMap_Calls_Spec XMap_Calls_Proofs Callback.
Local Open Scope Z_scope.

(** *** C123: whatever the hash and equality functions answer, also when they
    answer differently from call to call or panic, every call on a Custom made by
    NewCustom asks for the hash of its key once, first of all; asks whether keys
    are equal only if an entry is stored under that hash, then once, stored key
    first; leaves the map alone when one of them panics; and otherwise does what
    the answers say. *)
Theorem C123_calls : forall K V U (zero : V) (hash : K -> U -> option Z * U) (equal : K -> K -> U -> option bool * U) ops u,
  allCalls zero hash equal (fun _ => None) u ops (fst (runC zero hash equal ops (newC u))).
Proof. intros K V U zero hash equal ops u. exact (run_calls zero hash equal ops (newC u) eq_refl). Qed.
Print Assumptions C123_calls.

(** *** C123 for functions that answer the same every time and never panic: the
    calls answer as in C33. *)
Theorem C123_pure : forall K V (zero : V) (hash : K -> Z) (equal : K -> K -> bool) ops,
  map fst (fst (runC zero (fun k (u : unit) => (Some (hash k), u)) (fun a b u => (Some (equal a b), u)) ops (newC tt))) =
  map CRet (fst (cRun hash equal zero ops NewCustom)).
Proof.
  intros K V zero hash equal ops.
  assert (G : forall (ops : list (cOp K V)) (s : cst K V unit), ovf (cmap s) = None ->
    map fst (fst (runC zero (fun k (u : unit) => (Some (hash k), u)) (fun a b u => (Some (equal a b), u)) ops s)) =
    map CRet (fst (cRun hash equal zero ops (cmap s)))).
  { clear ops. induction ops as [|o ops IH]; intros s Hs; [reflexivity|]. cbn [runC cRun].
    destruct s as [[m ov] [] l]. cbn in Hs. subst ov. cbn [cmap user].
    assert (E : exists r m', cStep hash equal zero o {| main := m; ovf := None |} = (r, {| main := m'; ovf := None |}) /\
      exists l', stepC zero (fun k (u : unit) => (Some (hash k), u)) (fun a b u => (Some (equal a b), u)) o
        {| cmap := {| main := m; ovf := None |}; user := tt; made := [] |} =
        (CRet r, {| cmap := {| main := m'; ovf := None |}; user := tt; made := l' |})).
    { destruct o; cbn; unfold cSet, cDelete, cGet, setC, deleteC, getC, cbind, askHash, askEqual, ask, getMap, putMap, cret; cbn;
        destruct (gget zeqb m (hash k)) as [[mk mv]|]; cbn; try destruct (equal mk k); cbn; do 2 eexists; (split; [reflexivity|]); eexists; reflexivity. }
    destruct E as (r & m' & E1 & l' & E2). rewrite E1, E2.
    specialize (IH {| cmap := {| main := m'; ovf := None |}; user := tt; made := l' |} eq_refl). cbn [cmap] in IH.
    destruct (runC _ _ _ ops _) as [rs s'']. destruct (cRun _ _ _ ops _) as [rs' m'']. cbn in *. now rewrite IH. }
  apply (G ops (newC tt) eq_refl).
Qed.
Print Assumptions C123_pure.

(** The hash function counts its calls and panics at the third one; the equality
    function panics for the key 7. *)
Example C123_panics :
  fst (runC 0 (fun k n => (if n =? 2 then None else Some (k mod 5), n + 1))
              (fun a b n => (if b =? 7 then None else Some (a =? b), n))
              [CSet 2 20; CSet 7 70; CGet 2; CGet 2; CGet 4; CDelete 12] (newC 0)) =
  [(CRet (CBool true), [AskHash 2]);
   (CUser "panic in a function of the caller", [AskHash 7; AskEqual 2 7]);
   (CUser "panic in a function of the caller", [AskHash 2]);
   (CRet (CVal 20 true), [AskHash 2; AskEqual 2 2]);
   (CRet (CVal 0 false), [AskHash 4]);
   (CRet (CBool false), [AskHash 12; AskEqual 2 12])]%string.
Proof. reflexivity. Qed.
