(** Specification vocabulary for stream: what pipelines mean on lists. *)
From Coq Require Import String.
From Verif Require Import Base Arr Exn Stream_Model.
Local Open Scope string_scope.
Local Open Scope list_scope.
Local Open Scope Z_scope.

(** The stages of a pipeline, with plain functions, and what each does to a list. *)
Inductive stage (T : Type) : Type :=
| SFilter (p : T -> bool)
| SSkip (n : Z)
| SLimit (n : Z)
| SMap (f : T -> T)
| SPeek.
Arguments SFilter {T}. Arguments SSkip {T}. Arguments SLimit {T}. Arguments SMap {T}. Arguments SPeek {T}.

Definition apply {T} (g : stage T) (l : list T) : list T :=
  match g with
  | SFilter p => filter p l
  | SSkip n => skipn (Z.to_nat n) l
  | SLimit n => firstn (Z.to_nat n) l
  | SMap f => map f l
  | SPeek => l
  end.

(** The stages one after the other. *)
Definition pipeline {T} (gs : list (stage T)) (l : list T) : list T := fold_left (fun l g => apply g l) gs l.

(** How many elements Skip is asked to drop, in all. *)
Fixpoint skips {T} (gs : list (stage T)) : Z :=
  match gs with
  | [] => 0
  | SSkip n :: gs => n + skips gs
  | _ :: gs => skips gs
  end.

Section Laws.
  (** [obs] is a part of the world that callbacks leave alone; with the trivial
      [obs] they may change all of it. *)
  Context {W O : Type} (obs : W -> O).

  (** A callback that does not panic and answers as the function [g] does; it
      may change the world outside [obs]. *)
  Definition answers {A B} (f : A -> X W B) (g : A -> B) : Prop :=
    forall a w, exists w', f a w = (Ok (g a), w') /\ obs w' = obs w.

  (** A callback that moreover changes [obs] by [u]. *)
  Definition answers_upd {A B} (f : A -> X W B) (g : A -> B) (u : A -> O -> O) : Prop :=
    forall a w, exists w', f a w = (Ok (g a), w') /\ obs w' = u a (obs w).

  (** A source that is going to deliver a finite list: [D s l b] says that in
      state [s] the elements [l] are left, and Skip may still be asked to drop
      [b] elements (beyond that, integers may overflow). *)
  Record delivers {S T} (src : source S W T) (D : S -> list T -> Z -> Prop) : Prop := {
    del_end : forall s b w, D s [] b -> exists s' w', sNext src (s, w) = (Ok None, (s', w')) /\ obs w' = obs w;
    del_next : forall s x l b w, D s (x :: l) b ->
      exists s' w', sNext src (s, w) = (Ok (Some x), (s', w')) /\ D s' l b /\ obs w' = obs w;
    del_skip : forall s l b n w, D s l b -> 0 < n <= b ->
      exists k s' w', sSkip src n (s, w) = (Ok k, (s', w')) /\ D s' (skipn (Z.to_nat n) l) (b - n) /\ obs w' = obs w }.

  (** Builder calls. *)
  Inductive build (T : Type) : Type :=
  | BMap (f : T -> X W T) | BFilter (p : T -> X W bool) | BSkip (n : Z) | BLimit (n : Z) | BPeek (c : T -> X W unit).
  Arguments BMap {T}. Arguments BFilter {T}. Arguments BSkip {T}. Arguments BLimit {T}. Arguments BPeek {T}.

  Definition call {S T} (src : source S W T) (c : build T) : X (stream W T * (S * W)) unit :=
    match c with
    | BMap f => Map_ f
    | BFilter p => Filter p
    | BSkip n => Skip src n
    | BLimit n => Limit n
    | BPeek c => Peek c
    end.
  Fixpoint calls {S T} (src : source S W T) (cs : list (build T)) : X (stream W T * (S * W)) unit :=
    match cs with
    | [] => xret tt
    | c :: cs => xbind (call src c) (fun _ => calls src cs)
    end.

  (** A builder call and the stage it stands for. *)
  Inductive stands {T} : build T -> stage T -> Prop :=
  | st_map f g : answers f g -> stands (BMap f) (SMap g)
  | st_filter p q : answers p q -> stands (BFilter p) (SFilter q)
  | st_skip n : 0 <= n -> stands (BSkip n) (SSkip n)
  | st_limit n : 0 <= n -> stands (BLimit n) (SLimit n)
  | st_peek c : answers c (fun _ => tt) -> stands (BPeek c) SPeek.
End Laws.
Arguments build : clear implicits.
Arguments BMap {W T}. Arguments BFilter {W T}. Arguments BSkip {W T}. Arguments BLimit {W T}. Arguments BPeek {W T}.

(** [yields src n s z l]: from the stream [s] with its source in state [z],
    whatever the world, Next returns the elements of [l] one after the other
    and then nothing; [n] rounds of its loop are enough each time. *)
Fixpoint yields {W O S T} (obs : W -> O) (src : source S W T) (n : nat) (s : stream W T) (z : S) (l : list T) : Prop :=
  forall w, exists s' z' w',
    (forall fuel, (n <= fuel)%nat -> Next_ src fuel (s, (z, w)) = (Ok (hd_error l), (s', (z', w')))) /\
    obs w' = obs w /\
    match l with
    | [] => True
    | _ :: l' => yields obs src n s' z' l'
    end.

(** Builder calls and calls of Next in any order. *)
Inductive action (W T : Type) : Type := ANext | ABuild (c : build W T).
Arguments ANext {W T}. Arguments ABuild {W T}.
Inductive saction (T : Type) : Type := SNext | SStage (g : stage T).
Arguments SNext {T}. Arguments SStage {T}.

Fixpoint play {W S T} (src : source S W T) (fuel : nat) (acts : list (action W T)) : X (stream W T * (S * W)) (list (option T)) :=
  match acts with
  | [] => xret []
  | ANext :: acts => xbind (Next_ src fuel) (fun v => xbind (play src fuel acts) (fun vs => xret (v :: vs)))
  | ABuild c :: acts => xbind (call src c) (fun _ => play src fuel acts)
  end.

(** What they should give, for a list: Next takes the first element. *)
Fixpoint splay {T} (acts : list (saction T)) (l : list T) : list (option T) :=
  match acts with
  | [] => []
  | SNext :: acts => hd_error l :: splay acts (tl l)
  | SStage g :: acts => splay acts (apply g l)
  end.

Inductive astands_for {W O T} (obs : W -> O) : action W T -> saction T -> Prop :=
| af_next : astands_for obs ANext SNext
| af_build c g : stands obs c g -> astands_for obs (ABuild c) (SStage g).

Fixpoint askips {T} (acts : list (saction T)) : Z :=
  match acts with
  | [] => 0
  | SStage (SSkip n) :: acts => n + askips acts
  | _ :: acts => askips acts
  end.

(** No Skip is called once Next has said that the stream is over. *)
Fixpoint no_skip_after_end {T} (ended : bool) (acts : list (saction T)) (l : list T) : Prop :=
  match acts with
  | [] => True
  | SNext :: acts => no_skip_after_end (ended || match l with [] => true | _ => false end) acts (tl l)
  | SStage g :: acts =>
      match g with SSkip n => ended = true -> n = 0 | _ => True end /\ no_skip_after_end ended acts (apply g l)
  end.

(** The texts of the elements, with ", " between them. *)
Definition joined {T} (sprint : T -> string) (l : list T) : string :=
  match l with
  | [] => ""
  | x :: l => (sprint x ++ String.concat "" (map (fun v => ", " ++ sprint v) l))%string
  end.

(** ** The sources *)

(** A generator function that enumerates: [P z l] says that in state [z] the
    elements [l] are left; at the end it keeps saying so. *)
Record enumerates {W O G T} (obs : W -> O) (g : X (G * W) (option T)) (P : G -> list T -> Prop) : Prop := {
  en_some : forall z x l w, P z (x :: l) -> exists z' w', g (z, w) = (Ok (Some x), (z', w')) /\ P z' l /\ obs w' = obs w;
  en_none : forall z w, P z [] -> exists z' w', g (z, w) = (Ok None, (z', w')) /\ P z' [] /\ obs w' = obs w }.

(** A generator function without end: at position [k] it returns [f k]. *)
Definition generates {W O G T} (obs : W -> O) (g : X (G * W) T) (P : G -> nat -> Prop) (f : nat -> T) : Prop :=
  forall z k w, P z k -> exists z' w', g (z, w) = (Ok (f k), (z', w')) /\ P z' (Datatypes.S k) /\ obs w' = obs w.

(** A source without end: Next returns [f k] at position [k], Skip n moves by n. *)
Record endless {W O S T} (obs : W -> O) (src : source S W T) (P : S -> nat -> Prop) (f : nat -> T) : Prop := {
  el_next : forall z k w, P z k -> exists z' w', sNext src (z, w) = (Ok (Some (f k)), (z', w')) /\ P z' (Datatypes.S k) /\ obs w' = obs w;
  el_skip : forall z k n w, P z k -> 0 < n -> exists r z' w',
    sSkip src n (z, w) = (Ok r, (z', w')) /\ P z' (k + Z.to_nat n)%nat /\ obs w' = obs w }.

(** start, start + step, ...: n numbers. *)
Definition progression (start step : Z) (n : nat) : list Z := map (fun k => start + Z.of_nat k * step) (seq 0 n).

(** How many numbers there are from start to end, end included. *)
Definition range_count (start end_ step : Z) : nat :=
  if step >? 0 then Z.to_nat ((end_ - start) / step + 1) else Z.to_nat ((start - end_) / (- step) + 1).

Definition inType (t : inttype) (x : Z) : Prop := tmin t <= x <= tmax t.

(** ** What the callbacks see *)

(** A delivering source whose pulls are observed: each changes [obs] by [us];
    Skip does not. *)
Record delivers_upd {W O S T} (obs : W -> O) (us : T -> O -> O) (src : source S W T) (D : S -> list T -> Z -> Prop) : Prop := {
  du_end : forall s b w, D s [] b -> exists s' w', sNext src (s, w) = (Ok None, (s', w')) /\ obs w' = obs w;
  du_next : forall s x l b w, D s (x :: l) b ->
    exists s' w', sNext src (s, w) = (Ok (Some x), (s', w')) /\ D s' l b /\ obs w' = us x (obs w);
  du_skip : forall s l b n w, D s l b -> 0 < n <= b ->
    exists k s' w', sSkip src n (s, w) = (Ok k, (s', w')) /\ D s' (skipn (Z.to_nat n) l) (b - n) /\ obs w' = obs w }.

(** ** The order of calls, for callbacks whose answers may depend on anything *)

(** What a callback answered; [RFail] when it panicked or did not return. *)
Inductive answer (T : Type) : Type := RVal (v : T) | RBool (b : bool) | RUnit | RFail.
Arguments RVal {T}. Arguments RBool {T}. Arguments RUnit {T}. Arguments RFail {T}.
(** Pulls of elements from the source, and calls of the callback labelled [i]. *)
Inductive event (T : Type) : Type := EPull (v : T) | ECall (i : nat) (v : T) (a : answer T).
Arguments EPull {T}. Arguments ECall {T}.
Inductive kind : Type := KFilter | KMap | KPeek | KSkip | KLimit.

(** The end of an element's way through the stages. *)
Inductive fate (T : Type) : Type := Out (v : T) | Back | Halted | Failed (e : outcome (option T)).
Arguments Out {T}. Arguments Back {T}. Arguments Halted {T}. Arguments Failed {T}.

(** The callbacks that one element meets: stage after stage, each on what Map
    made of it, until one of them keeps it back.  A Skip or a Limit lets it
    pass or keeps it back. *)
Inductive visit {T} : list (nat * kind) -> T -> list (event T) -> fate T -> Prop :=
| vi_out v : visit [] v [] (Out v)
| vi_yes i r v es d : visit r v es d -> visit ((i, KFilter) :: r) v (ECall i v (RBool true) :: es) d
| vi_no i r v : visit ((i, KFilter) :: r) v [ECall i v (RBool false)] Back
| vi_map i r v v' es d : visit r v' es d -> visit ((i, KMap) :: r) v (ECall i v (RVal v') :: es) d
| vi_peek i r v es d : visit r v es d -> visit ((i, KPeek) :: r) v (ECall i v RUnit :: es) d
| vi_fail i k r v e : (forall a, e <> Ok a) -> visit ((i, k) :: r) v [ECall i v RFail] (Failed e)
| vi_skip i r v es d : visit r v es d -> visit ((i, KSkip) :: r) v es d
| vi_skipped i r v : visit ((i, KSkip) :: r) v [] Back
| vi_limit i r v es d : visit r v es d -> visit ((i, KLimit) :: r) v es d
| vi_stopped i r v : visit ((i, KLimit) :: r) v [] Halted.

(** One call of Next: what it logs and its result.  Elements that are kept
    back, one after the other, and then one that decides; or the source ends
    or fails. *)
Inductive turn {T} (iks : list (nat * kind)) : list (event T) -> outcome (option T) -> Prop :=
| tu_back v es r es' : visit iks v es Back -> turn iks es' r -> turn iks (EPull v :: es ++ es') r
| tu_out v es v' : visit iks v es (Out v') -> turn iks (EPull v :: es) (Ok (Some v'))
| tu_stop v es : visit iks v es Halted -> turn iks (EPull v :: es) (Ok None)
| tu_fail v es e : visit iks v es (Failed e) -> turn iks (EPull v :: es) e
| tu_end : turn iks [] (Ok None)
| tu_source e : (forall a, e <> Ok a) -> turn iks [] e.

(** A callback that logs its calls with the answers, whatever these are. *)
Definition logs_calls {W T B} (log : W -> list (event T)) (i : nat) (ans : B -> answer T) (f : T -> X W B) : Prop :=
  forall v w r w', f v w = (r, w') -> log w' = log w ++ [ECall i v (match r with Ok b => ans b | _ => RFail end)].

(** A builder call with such a callback. *)
Inductive logs {W T} (log : W -> list (event T)) : build W T -> nat * kind -> Prop :=
| lo_map i f : logs_calls log i RVal f -> logs log (BMap f) (i, KMap)
| lo_filter i p : logs_calls log i RBool p -> logs log (BFilter p) (i, KFilter)
| lo_skip i n : logs log (BSkip n) (i, KSkip)
| lo_limit i n : logs log (BLimit n) (i, KLimit)
| lo_peek i c : logs_calls log i (fun _ => RUnit) c -> logs log (BPeek c) (i, KPeek).

Definition noLimit {T} (g : stage T) : Prop := match g with SLimit _ => False | _ => True end.
Definition noSkip {T} (g : stage T) : Prop := match g with SSkip _ => False | _ => True end.
(** Filter and Limit are the stages after which Skip is a stage of its own. *)
Definition selects {T} (g : stage T) : bool := match g with SFilter _ | SLimit _ => true | _ => false end.

(** The first [m] elements from position [k] on. *)
Definition prefix {T} (f : nat -> T) (k m : nat) : list T := map f (seq k m).

(** A source without end whose pulls are counted. *)
Definition counted {W S T} (pulls : W -> nat) (src : source S W T) (P : S -> nat -> Prop) (f : nat -> T) : Prop :=
  forall z k w, P z k -> exists z' w',
    sNext src (z, w) = (Ok (Some (f k)), (z', w')) /\ P z' (Datatypes.S k) /\ pulls w' = Datatypes.S (pulls w).

(** Calls of Next, one after the other. *)
Fixpoint nexts {W S T} (src : source S W T) (fuels : list nat) : X (stream W T * (S * W)) (list (option T)) :=
  match fuels with
  | [] => xret []
  | fuel :: fuels => xbind (Next_ src fuel) (fun v => xbind (nexts src fuels) (fun vs => xret (v :: vs)))
  end.

(** A source whose pulls are logged; its Skip logs nothing. *)
Definition logs_pulls {W S T} (log : W -> list (event T)) (src : source S W T) : Prop :=
  (forall z w r z' w', sNext src (z, w) = (r, (z', w')) ->
     log w' = log w ++ match r with Ok (Some v) => [EPull v] | _ => [] end) /\
  (forall n z w r z' w', sSkip src n (z, w) = (r, (z', w')) -> log w' = log w).
