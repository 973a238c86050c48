(** C105: a Slice kept in order with the searches of algo. *)
From Coq Require Import Permutation.
From Verif Require Import Base Arr Exn XSort_Spec GoSlice Perm_Proofs XSlice_Model XSlice_Sorted_Spec XSlice_Sorted_Proofs.
Local Open Scope list_scope.
Local Open Scope Z_scope.

(** *** For every strict weak order, every sorted slice and every history of
    such additions, removals and membership tests: no call panics, every answer
    is right, and the elements are those of the list, still in order. *)
Theorem C105_sorted_slice : forall {T} (zero : T) growth (lt : T -> T -> bool), strict_weak_order lt ->
  forall (h : heap T) (s : slice), valid h s -> sorted_by lt (elems h s) ->
  forall cs, exists h' s',
    runOps (carry_out zero growth lt) cs (h, s) = (map Ok (fst (listCalls lt cs (elems h s))), (h', s')) /\
    valid h' s' /\ elems h' s' = snd (listCalls lt cs (elems h s)) /\ sorted_by lt (elems h' s').
Proof.
  intros T zero growth lt O h s V HS cs. pose proof (calls_ok zero growth lt O cs h s V HS) as H.
  destruct (listCalls lt cs (elems h s)) as [rs l']. destruct H as (h' & s' & E & V' & E' & HS'). exists h', s'. rewrite E'. auto.
Qed.
Print Assumptions C105_sorted_slice.

(** What the list operations mean: an addition adds one element and keeps the
    order of equivalent ones, with the new one last; a removal takes the first
    element equivalent to [v] away if there is one; nothing else changes. *)
Theorem C105_meaning : forall {T} (lt : T -> T -> bool), strict_weak_order lt -> forall v l,
  (Permutation (snd (listCall lt (CAdd v) l)) (v :: l)) /\
  (sorted_by lt l -> keeps_equiv_order lt (l ++ [v]) (snd (listCall lt (CAdd v) l))) /\
  (fst (listCall lt (CRemove v) l) = true <-> exists x, In x l /\ equivb lt v x = true) /\
  (fst (listCall lt (CRemove v) l) = false -> snd (listCall lt (CRemove v) l) = l) /\
  (fst (listCall lt (CRemove v) l) = true -> exists a x b, l = a ++ x :: b /\ (forall y, In y a -> equivb lt v y = false) /\
     equivb lt v x = true /\ snd (listCall lt (CRemove v) l) = a ++ b).
Proof.
  intros T lt O v l. cbn [listCall fst snd]. split; [|split; [|split; [|split]]].
  - etransitivity; [symmetry; apply Permutation_middle|]. constructor. induction l as [|x l IH]; [constructor|]. cbn [filter]. destruct (lt v x); cbn [negb].
    + etransitivity; [symmetry; apply Permutation_middle|]. now constructor.
    + cbn [app]. now constructor.
  - intros HS x. destruct (Algo_Facts.sorted_split_upper lt O v l HS) as (a & b & -> & Ha & Hb).
    assert (EA : filter (fun x => negb (lt v x)) (a ++ b) ++ v :: filter (lt v) (a ++ b) = a ++ v :: b).
    { rewrite !filter_app. rewrite (filter_all _ a), (filter_none (lt v) a), (filter_none _ b), (filter_all _ b), app_nil_r; auto.
      - intros y Hy. now rewrite Hb.
      - intros y Hy. now rewrite Ha. }
    rewrite EA. rewrite !filter_app. cbn [filter]. destruct (equivb lt x v) eqn:Ex; [|now rewrite app_nil_r].
    rewrite (filter_none (equivb lt x) b); [now rewrite app_nil_r|]. intros y Hy. apply not_true_is_false. intros Ey.
    unfold equivb in Ex, Ey. apply andb_true_iff in Ex as [X1 X2], Ey as [Y1 Y2]. rewrite negb_true_iff in *.
    pose proof (neg_trans lt O v x y X2 Y1). pose proof (Hb y Hy). congruence.
  - apply existsb_exists.
  - apply without_none.
  - induction l as [|y l IH]; cbn [existsb without]; [discriminate|]. destruct (equivb lt v y) eqn:Ey.
    + intros _. exists [], y, l. repeat split; auto. intros z [].
    + cbn [orb]. intros H. destruct (IH H) as (a & x & b & -> & Ha & Ex & E). exists (y :: a), x, b. cbn [app]. rewrite E. repeat split; auto.
      intros z [<-|Hz]; auto.
Qed.
Print Assumptions C105_meaning.

(** Non-vacuity: a history that moves the slice to larger arrays; the pairs are
    compared by their first component. *)
Definition byFirst (p q : Z * Z) : bool := fst p <? fst q.
Example C105_order : strict_weak_order byFirst.
Proof. unfold byFirst. split; intros; lia. Qed.
Example C105_history :
  let '(rs, (h, s)) := runOps (carry_out (0, 0) (fun _ n => n) byFirst) [CAdd (3, 1); CAdd (1, 1); CAdd (3, 2); CHas (3, 0); CHas (2, 0); CRemove (3, 9); CRemove (2, 0)] ([[]], nilSlice) in
  rs = [Ok true; Ok true; Ok true; Ok true; Ok false; Ok true; Ok false] /\ elems h s = [(1, 1); (3, 2)].
Proof. vm_compute. split; reflexivity. Qed.
