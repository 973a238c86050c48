(** C124: NextPermutation with the order turned round goes back. *)
From Coq Require Import Permutation.
From Verif Require Import Base Arr Exn XSort_Spec Iter_Model Iter_Spec Algo_Model Algo_Spec
  Algo_Proofs Perm_Proofs NextPerm_Proofs Enum_Proofs GoSlice GoSlice_Proofs XSlice_Model XSlice_Proofs Algo_Facts Algo_Props.
Local Open Scope list_scope.
Local Open Scope Z_scope.

Section Back.
  Context {T : Type} (lt : T -> T -> bool) (O : strict_weak_order lt).
  Notation tl := (fun x y => lt y x).

  Lemma swo_flip : strict_weak_order tl.
  Proof.
    split.
    - intros x. apply (swo_irrefl _ O).
    - intros x y z H1 H2. exact (swo_trans _ O _ _ _ H2 H1).
    - intros x y z H1 H2 H3 H4. apply (swo_incomp _ O z y x); assumption.
  Qed.

  Lemma lexlt_flip l : forall l', lexlt tl l l' <-> lexlt lt l' l.
  Proof. induction l as [|x l IH]; intros [|y l']; cbn; try tauto. rewrite IH. tauto. Qed.

  Definition alike (l l' : list T) : Prop := Forall2 (fun x y => lt x y = false /\ lt y x = false) l l'.

  Lemma lexlt_total l : forall l', List.length l = List.length l' -> lexlt lt l l' \/ alike l l' \/ lexlt lt l' l.
  Proof.
    induction l as [|x l IH]; intros [|y l'] E; try discriminate; [right; left; constructor|].
    cbn. destruct (lt x y) eqn:E1; [auto|]. destruct (lt y x) eqn:E2; [auto|].
    destruct (IH l') as [H|[H|H]]; [now injection E|auto| |auto 7].
    right. left. constructor; auto.
  Qed.

  Lemma desc_flip l : desc tl l <-> asc lt l.
  Proof. induction l as [|x l IH]; cbn; [tauto|]. now rewrite IH. Qed.

  Lemma alike_refl l : alike l l.
  Proof. induction l; constructor; [split; apply (swo_irrefl _ O)|assumption]. Qed.
  Lemma alike_total l l' : total lt -> alike l l' -> l' = l.
  Proof. intros Ht A. induction A as [|x y l l' [H1 H2] _ IH]; [reflexivity|]. now rewrite IH, (Ht x y). Qed.
End Back.

(** *** C124: let [comp'] answer like [comp] with its arguments swapped.  After a
    call of NextPermutation with [comp], one with [comp'] gives the same answer
    and puts back what was there; elements that [comp] does not tell apart may
    have changed places. *)
Theorem C124_goes_back :
  forall {St It T C} (o : ops St It T) n (plug : C -> list T -> St) at_ comp comp' lt tick tick',
  lawful o n plug at_ -> lawful_prev o n plug at_ -> lawful_set o n plug at_ -> lawful_random o n plug at_ ->
  answers comp lt tick plug -> answers comp' (fun x y => lt y x) tick' plug -> strict_weak_order lt ->
  forall w pre mid post fuel, zlen (pre ++ mid ++ post) = n -> (List.length mid <= fuel)%nat ->
  let range := (at_ (zlen pre), at_ (zlen pre + zlen mid)) in
  exists b w' mid' w'' mid'',
    NextPermutationAny o comp fuel range (plug w (pre ++ mid ++ post)) = (Ok b, plug w' (pre ++ mid' ++ post)) /\
    NextPermutationAny o comp' fuel range (plug w' (pre ++ mid' ++ post)) = (Ok b, plug w'' (pre ++ mid'' ++ post)) /\
    Forall2 (fun x y => lt x y = false /\ lt y x = false) mid mid'' /\
    (total lt -> mid'' = mid).
Proof.
  intros St It T C o n plug at_ comp comp' lt tick tick' L LP LS LR HC HC' O w pre mid post fuel Hn Hf range.
  assert (N : forall p : list T, zlen p = zlen mid -> zlen pre + zlen p + zlen post = n) by (intros p Hp; rewrite !zlen_app in Hn; lia).
  assert (F : zlen mid <= Z.of_nat fuel) by (unfold zlen; lia).
  destruct (next_step o n plug at_ L LP LS LR comp lt tick HC O pre post (zlen mid) fuel (N mid eq_refl) F w mid eq_refl)
    as [(w' & p' & E & P & Lt & Least)|(w' & E & D)].
  - assert (Zp : zlen p' = zlen mid) by (unfold zlen; now rewrite (Permutation_length P)).
    destruct (next_step o n plug at_ L LP LS LR comp' _ tick' HC' (swo_flip lt O) pre post (zlen mid) fuel (N mid eq_refl) F w' p' Zp)
      as [(w'' & p'' & E' & P' & Lt' & Least')|(w'' & E' & D')].
    + exists true, w', p', w'', p''. split; [exact E|]. split; [exact E'|].
      apply (lexlt_flip lt) in Lt'.
      assert (A : alike lt mid p'').
      { destruct (lexlt_total lt mid p'') as [H|[H|H]].
        - now rewrite (Permutation_length P), (Permutation_length P').
        - exfalso. apply (Least p''); [now rewrite P|assumption|assumption].
        - assumption.
        - exfalso. apply (Least' mid); [now symmetry|now apply lexlt_flip|now apply lexlt_flip]. }
      split; [exact A|]. intros Ht. now apply (alike_total lt).
    + exfalso. apply (desc_greatest _ (swo_flip lt O) p' D' mid); [|now apply lexlt_flip].
      apply perm_same. now symmetry.
  - assert (Zr : zlen (rev mid) = zlen mid) by (unfold zlen; now rewrite rev_length).
    destruct (next_step o n plug at_ L LP LS LR comp' _ tick' HC' (swo_flip lt O) pre post (zlen mid) fuel (N mid eq_refl) F w' (rev mid) Zr)
      as [(w'' & p'' & E' & P' & Lt' & _)|(w'' & E' & D')].
    + exfalso. apply (desc_greatest _ (swo_flip lt O) (rev mid)) in Lt'; [assumption| |now apply perm_same].
      apply desc_flip. now apply asc_rev.
    + exists false, w', (rev mid), w'', mid. rewrite rev_involutive in E'.
      split; [exact E|]. split; [exact E'|]. split; [now apply alike_refl|reflexivity].
Qed.
Print Assumptions C124_goes_back.

(** 3 5 3 1 in a larger array, forward and back. *)
Example C124_case :
  NextPermutationAny exOps exComp 4 (mkIt 0 exSlice, mkIt 4 exSlice) ([[]; []; [9; 3; 5; 3; 1; 8]], 0)
    = (Ok true, ([[]; []; [9; 5; 1; 3; 3; 8]], 5)) /\
  NextPermutationAny exOps (fun x y => exComp y x) 4 (mkIt 0 exSlice, mkIt 4 exSlice) ([[]; []; [9; 5; 1; 3; 3; 8]], 5)
    = (Ok true, ([[]; []; [9; 3; 5; 3; 1; 8]], 10)).
Proof. split; reflexivity. Qed.
Example C124_hypotheses :
  answers (fun x y => exComp y x) (fun x y => Z.ltb y x) (fun _ _ '(u, c) => (u, c + 1)) (plugW Z (store exHeap exSlice)).
Proof. intros x y [[] c] l. reflexivity. Qed.
