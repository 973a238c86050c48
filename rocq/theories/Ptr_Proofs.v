(** Proofs about atomic.Ptr. *)
From Coq Require Import Permutation.
From Verif Require Import Base Lin Lin_Proofs Ptr_Model Ptr_Spec.
Local Open Scope list_scope.

Lemma samePointer_iff a b : samePointer a b = true <-> a = b.
Proof. destruct a, b; cbn; try (split; congruence). rewrite Nat.eqb_eq. split; congruence. Qed.

Inductive at_point : tstate op prog -> phase op res -> Prop :=
| at_idle : at_point Idle PIdle
| at_start o : at_point (Run o (code o)) (PPending o)
| at_end o r : at_point (Run o (Ret r)) (PDone o r).

Lemma ptr_simulation val tr c : execution (newPtr val) tr c ->
  exists h p, linearized tr h p /\ sequential variable val h (shared c) /\ forall t, at_point (thread c t) (p t).
Proof.
  intros H.
  destruct (simulation code over instr variable val val (fun sh s => sh = s) (fun _ _ _ ts p => at_point ts p)
              eq_refl (fun _ => at_idle)) with (tr := tr) (c := c) as (h & p & s & HL & HS & HI & HP); try exact H.
  - intros sh s t p Hp. inversion Hp. reflexivity.
  - intros. constructor.
  - intros sh s t o k p r _ Hp E. inversion Hp; subst.
    + destruct o; discriminate E.
    + cbn in E. injection E as ->. split; [reflexivity|constructor].
  - intros sh s t o k p k' sh' <- Hp HS. inversion Hp; subst; [|inversion HS].
    destruct o as [|x|x|old new]; cbn [code] in HS; inversion HS; subst; clear HS;
      eexists _, _; (split; [reflexivity|]); (split; [apply at_end|]); (split; [|auto]); right; eexists; (split; [reflexivity|]); (split; [|reflexivity]).
    + constructor.
    + constructor.
    + constructor.
    + destruct (samePointer sh old) eqn:E.
      * apply samePointer_iff in E. subst. constructor.
      * constructor. intros ->. assert (samePointer old old = true) by now apply samePointer_iff. congruence.
  - subst s. eauto.
Qed.

Lemma one_winner h s : sequential variable None h s -> (forall o r, In (o, r) h -> exists x, o = CompareAndSwap None (Some x)) ->
  (h = [] /\ s = None) \/
  (s <> None /\ exists o rest, Permutation h ((o, RBool true) :: rest) /\ forall o' r', In (o', r') rest -> r' = RBool false).
Proof.
  intros HS. induction HS as [|h s o r s' HS IH HV]; intros HOh; [now left|]. right.
  destruct (HOh o r) as (x & ->); [rewrite in_app_iff; right; now left|].
  destruct IH as [[-> ->]|(Hne & o1 & rest & Hp & Hr)].
  { intros o' r' Hin. apply HOh with r'. rewrite in_app_iff. now left. }
  - inversion HV; subst; [|congruence]. split; [discriminate|]. eexists _, []. split; [cbn [app]; reflexivity|]. intros ? ? [].
  - inversion HV; subst; [congruence|]. split; [exact Hne|]. exists o1, (rest ++ [(CompareAndSwap None (Some x), RBool false)]). split.
    + now rewrite Hp.
    + intros o' r' Hin. rewrite in_app_iff in Hin. destruct Hin as [Hin|[[= <- <-]|[]]]; eauto.
Qed.

Lemma one_instruction o t v : exists r v', instr t (code o) v (Ret r) v' /\ forall k w, instr t (code o) v k w -> k = Ret r /\ w = v'.
Proof.
  destruct o as [|x|x|old new]; cbn [code].
  - exists (RPtr v), v. split; [exact (i_load t (fun p => Ret (RPtr p)) v)|]. intros k w H; inversion H; subst; auto.
  - exists RUnit, x. split; [apply i_store|]. intros k w H; inversion H; subst; auto.
  - exists (RPtr v), x. split; [exact (i_swap t x (fun p => Ret (RPtr p)) v)|]. intros k w H; inversion H; subst; auto.
  - eexists _, _. split; [exact (i_cas t old new (fun b => Ret (RBool b)) v)|]. intros k w H; inversion H; subst; auto.
Qed.
