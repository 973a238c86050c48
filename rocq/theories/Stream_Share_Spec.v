(** What it means that streams share out the elements of a source. *)
From Verif Require Import Base Arr Exn Stream_Model Stream_Spec Stream_Share_Model.
Local Open Scope list_scope.
Local Open Scope Z_scope.

(** A source that goes on saying that it is over when it is over.  What may still
    be skipped then is as before, or at least [m]. *)
Definition staysOver {S W T} (src : source S W T) (D : S -> list T -> Z -> Prop) (m : Z) : Prop :=
  forall s b w, D s [] b -> exists s' w' b', sNext src (s, w) = (Ok None, (s', w')) /\ D s' [] b' /\ Z.min b m <= b'.

(** A source of its own for one stream, which has just the elements of a list. *)
Definition listSource {W T} : source (list T) W T := {|
  sNext := fun '(l, w) => match l with [] => (Ok None, ([], w)) | x :: l => (Ok (Some x), (l, w)) end;
  sSkip := fun n '(l, w) => (Ok (-1), (skipn (Z.to_nat n) l, w)) |}.

(** Each element of [l] goes to the stream that [who] names for it: what stream
    [i] gets, in order.  Elements beyond the end of [who] go to nobody. *)
Fixpoint dealt {T} (i : nat) (who : list nat) (l : list T) : list T :=
  match who, l with
  | j :: who, x :: l => if Nat.eqb j i then x :: dealt i who l else dealt i who l
  | _, _ => []
  end.

(** The uses of stream [i], and what they gave. *)
Fixpoint usesOf {W T} (i : nat) (us : list (nat * use W T)) : list (use W T) :=
  match us with
  | [] => []
  | (j, u) :: us => if Nat.eqb j i then u :: usesOf i us else usesOf i us
  end.
Fixpoint givenTo {W T R} (i : nat) (us : list (nat * use W T)) (rs : list R) : list R :=
  match us, rs with
  | (j, _) :: us, r :: rs => if Nat.eqb j i then r :: givenTo i us rs else givenTo i us rs
  | _, _ => []
  end.

(** Callbacks whose answers (or panics) do not depend on the world; they may
    change it. *)
Definition deaf {W A B} (f : A -> X W B) : Prop := forall a w w', fst (f a w) = fst (f a w').
Definition deafBuild {W T} (c : build W T) : Prop :=
  match c with BMap f => deaf f | BFilter p => deaf p | BPeek c => deaf c | _ => True end.
Definition deafUse {W T} (u : use W T) : Prop := match u with UBuild c => deafBuild c | _ => True end.

(** How many elements the uses ask to skip, in all. *)
Fixpoint skipsOf {W T} (us : list (nat * use W T)) : Z :=
  match us with
  | [] => 0
  | (_, UBuild (BSkip n)) :: us => Z.max 0 n + skipsOf us
  | _ :: us => skipsOf us
  end.

(** [k] pages of [n] elements with one element lost after each. *)
Fixpoint gappyPages {T} (n : nat) (k : nat) (l : list T) : list (list T) :=
  match k with
  | O => []
  | Datatypes.S k => firstn n l :: gappyPages n k (skipn (n + 1) l)
  end.
