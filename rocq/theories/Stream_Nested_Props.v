(** C48, explicitly for towers of streams. *)
From Coq Require Import Lia.
From Verif Require Import Base Arr Exn Stream_Model Stream_Spec Stream_Props.
Local Open Scope string_scope.
Local Open Scope list_scope.
Local Open Scope Z_scope.

(** [tower obs src z w l b]: [src] in state [z] and world [w] is a delivering source, or
    stream.Map(s, f) with a stream [s] made by builder calls over the source of a
    smaller tower.  [l] are the elements that list operations give. *)
Inductive tower {W O : Type} (obs : W -> O) : forall S T : Type, source S W T -> S -> W -> list T -> Z -> Prop :=
| tower_base S T (src : source S W T) D z w l b : delivers obs src D -> D z l b -> tower obs S T src z w l b
| tower_map S T R (src : source S W T) z w l b cs gs s' z' w' (f : T -> X W R) g fuel :
    tower obs S T src z w l b ->
    Forall2 (stands obs) cs gs -> skips gs <= b -> calls src cs (New, (z, w)) = (Ok tt, (s', (z', w'))) ->
    answers obs f g -> (List.length l < fuel)%nat ->
    tower obs (stream W T * S) R (transformed src fuel f) (s', z') w' (map g (pipeline gs l)) (b - skips gs).

Lemma tower_delivers {W O S T} (obs : W -> O) (src : source S W T) z w l b : tower obs S T src z w l b ->
  exists D, delivers obs src D /\ D z l b.
Proof.
  induction 1 as [S T src D z w l b H1 H2|S T R src z w l b cs gs s' z' w' f g fuel H (D & L & HD) HS Hb HC Hf Hl]; [eauto|].
  destruct (C48_map obs src D f g fuel L Hf) as (D' & L' & HD'). exists D'. split; [exact L'|].
  destruct (HD' cs gs z l b w HS HD Hb Hl) as (s1 & z1 & w1 & E & _ & Q). rewrite HC in E. injection E as <- <- <-. exact Q.
Qed.

(** A stream on top of a tower of any height yields what the list operations give,
    one level after the other; and the level below can always be built. *)
Theorem C48_nested {W O S T} (obs : W -> O) (src : source S W T) z w l b cs gs : tower obs S T src z w l b ->
  Forall2 (stands obs) cs gs -> skips gs <= b ->
  (exists s' z' w', calls src cs (New, (z, w)) = (Ok tt, (s', (z', w')))) /\
  forall fuel, (Datatypes.S (List.length l) < fuel)%nat ->
  exists s' z' w',
    xbind (calls src cs) (fun _ => Slice src fuel) (New, (z, w)) = (Ok (pipeline gs l), (s', (z', w'))) /\ obs w' = obs w.
Proof.
  intros H HS Hb. destruct (tower_delivers obs src z w l b H) as (D & L & HD). split.
  - destruct (C48_map obs src D (fun x => xret x) (fun x => x) (Datatypes.S (List.length l)) L) as (D' & _ & Q).
    + intros x w1. exists w1. split; reflexivity.
    + destruct (Q cs gs z l b w HS HD Hb ltac:(lia)) as (s' & z' & w' & E & _). eauto.
  - intros fuel Hf. exact (C40_slice_partial obs src D cs gs z l b L HS HD Hb w fuel Hf).
Qed.
Print Assumptions C48_nested.

(** Three levels: words, their lengths, squares of these; without the word "ef"
    at the first level and without the first at the second. *)
Example C48_tower : exists z w, tower (fun w : unit => w) _ _
  (transformed (transformed (sliceSource (W := unit) ["a"; "bcd"; "ef"; "ghij"]%string) 9 (quiet (fun t => Z.of_nat (String.length t)))) 9 (quiet (fun n => n * n)))
  z w [9; 16] 99.
Proof.
  assert (Q : forall A B (f : A -> B), answers (fun w : unit => w) (quiet f) f) by (intros A B f a w; exists w; split; reflexivity).
  destruct (C49_slice_partial (W := unit) (fun w => w) ["a"; "bcd"; "ef"; "ghij"]%string) as (D & L & HD).
  pose proof (tower_base _ _ _ _ D 0 tt _ 100 L (HD 100 ltac:(cbn; unfold maxInt; lia))) as H.
  eapply (tower_map _ _ _ _ _ _ _ _ _ [BFilter (quiet (fun t => negb (String.eqb t "ef")))] [SFilter (fun t => negb (String.eqb t "ef"))]) in H;
    [|constructor; [constructor; apply Q|constructor]|cbn; lia|reflexivity|apply Q|cbn; instantiate (1 := 9%nat); lia].
  eapply (tower_map _ _ _ _ _ _ _ _ _ [BSkip 1] [SSkip 1]) in H;
    [|constructor; [constructor; lia|constructor]|cbn; lia|reflexivity|apply Q|cbn; instantiate (1 := 9%nat); lia].
  eexists _, _. exact H.
Qed.
