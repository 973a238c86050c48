(** What a stream does when callbacks panic and the program recovers. *)
From Coq Require Import String.
From Verif Require Import Base Arr Exn Stream_Model Stream_Spec.
Local Open Scope string_scope.
Local Open Scope list_scope.
Local Open Scope Z_scope.

(** A callback that answers as the partial function [g] says: a result, or a
    panic.  It may change the world. *)
Definition tells {W A B} (f : A -> X W B) (g : A -> B + string) : Prop :=
  forall a w, exists w', f a w = (match g a with inl b => Ok b | inr e => Panic e end, w').

(** Stages with such callbacks. *)
Inductive pstage (T : Type) : Type :=
| PFilter (p : T -> bool + string)
| PSkip (n : Z)
| PLimit (n : Z)
| PMap (f : T -> T + string)
| PPeek (c : T -> unit + string).
Arguments PFilter {T}. Arguments PSkip {T}. Arguments PLimit {T}. Arguments PMap {T}. Arguments PPeek {T}.

Inductive pstands {W T} : build W T -> pstage T -> Prop :=
| ps_map f g : tells f g -> pstands (BMap f) (PMap g)
| ps_filter p q : tells p q -> pstands (BFilter p) (PFilter q)
| ps_skip n : 0 <= n -> pstands (BSkip n) (PSkip n)
| ps_limit n : 0 <= n -> pstands (BLimit n) (PLimit n)
| ps_peek c g : tells c g -> pstands (BPeek c) (PPeek g).

(** An element on its way, or the panic that took its place. *)
Inductive item (T : Type) : Type := Val (v : T) | Bad (e : string).
Arguments Val {T}. Arguments Bad {T}.

(** Skip drops [n] elements, Limit ends the list at the element after the
    first [n]; neither counts panics. *)
Fixpoint skipItems {T} (n : Z) (l : list (item T)) : list (item T) :=
  match l with
  | [] => []
  | Bad e :: l => Bad e :: skipItems n l
  | Val v :: l => if n >? 0 then skipItems (n - 1) l else Val v :: l
  end.
Fixpoint limitItems {T} (n : Z) (l : list (item T)) : list (item T) :=
  match l with
  | [] => []
  | Bad e :: l => Bad e :: limitItems n l
  | Val v :: l => if n >? 0 then Val v :: limitItems (n - 1) l else []
  end.

(** What a stage makes of one item. *)
Definition onItem {T} (g : T -> list (item T)) (x : item T) : list (item T) :=
  match x with Val v => g v | Bad e => [Bad e] end.

Definition papply {T} (g : pstage T) (l : list (item T)) : list (item T) :=
  match g with
  | PFilter p => flat_map (onItem (fun v =>
      match p v with inl true => [Val v] | inl false => [] | inr e => [Bad e] end)) l
  | PMap f => flat_map (onItem (fun v => match f v with inl v' => [Val v'] | inr e => [Bad e] end)) l
  | PPeek c => flat_map (onItem (fun v => match c v with inl _ => [Val v] | inr e => [Bad e] end)) l
  | PSkip n => skipItems n l
  | PLimit n => limitItems n l
  end.

(** A Skip before any Filter or Limit takes its elements from the source: no
    callback sees them. *)
Fixpoint atSource {T} (gs : list (pstage T)) : Z :=
  match gs with
  | [] => 0
  | PSkip n :: gs => n + atSource gs
  | PFilter _ :: _ | PLimit _ :: _ => 0
  | _ :: gs => atSource gs
  end.
Fixpoint behind {T} (gs : list (pstage T)) : list (pstage T) :=
  match gs with
  | [] => []
  | PSkip _ :: gs => behind gs
  | PFilter _ :: _ | PLimit _ :: _ => gs
  | g :: gs => g :: behind gs
  end.

(** What the pipeline makes of the source's elements. *)
Definition items {T} (gs : list (pstage T)) (l : list T) : list (item T) :=
  fold_left (fun l g => papply g l) (behind gs) (map Val (skipn (Z.to_nat (atSource gs)) l)).

(** [k] calls of Next, each recovered when it panics. *)
Fixpoint tries {W S T} (src : source S W T) (fuel : nat) (k : nat) (s : stream W T * (S * W))
  : list (outcome (option T)) :=
  match k with
  | O => []
  | Datatypes.S k => let '(r, s') := Next_ src fuel s in r :: tries src fuel k s'
  end.

(** Their answers: one item each, then the end, again and again. *)
Fixpoint told {T} (k : nat) (l : list (item T)) : list (outcome (option T)) :=
  match k, l with
  | O, _ => []
  | Datatypes.S k, [] => Ok None :: told k []
  | Datatypes.S k, Val v :: l => Ok (Some v) :: told k l
  | Datatypes.S k, Bad e :: l => Panic e :: told k l
  end.

(** The pipeline in which an element on which a callback panics is filtered
    out at the stage where it happens: earlier Limits and Skips have counted
    it, later stages never see it. *)
Definition survives {T} (g : pstage T) (v : T) : option T :=
  match g with
  | PFilter p => match p v with inl true => Some v | _ => None end
  | PMap f => match f v with inl v' => Some v' | _ => None end
  | PPeek c => match c v with inl _ => Some v | _ => None end
  | PSkip _ | PLimit _ => None
  end.
Fixpoint survivors {T} (gs : list (pstage T)) (l : list T) : list T :=
  match gs with
  | [] => l
  | PSkip n :: gs => survivors gs (skipn (Z.to_nat n) l)
  | PLimit n :: gs => survivors gs (firstn (Z.to_nat n) l)
  | g :: gs => survivors gs (flat_map (fun v => match survives g v with Some v' => [v'] | None => [] end) l)
  end.

(** The elements given by the calls that did not panic. *)
Definition given {T} (l : list (outcome (option T))) : list T :=
  flat_map (fun r => match r with Ok (Some v) => [v] | _ => [] end) l.
