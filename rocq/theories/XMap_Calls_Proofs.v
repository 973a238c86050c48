(** What a Custom asks of its functions. *)
From Verif Require Import Base GoMap XMap_Model XMap_Calls_Model XMap_Calls_Spec Callback.

Section CallsProofs.
  Context {K V U : Type} (zero : V) (hash : K -> U -> option Z * U) (equal : K -> K -> U -> option bool * U).
  Notation cst := (cst K V U).

  Lemma zeqb_pe : partial_equiv zeqb.
  Proof.
    constructor; unfold zeqb; intros *; rewrite ?Z.eqb_eq; congruence.
  Qed.

  (** The entries of a map. *)
  Definition at_ (m : gomap Z (K * V)) : places (K := K) (V := V) := fun h => gget zeqb m h.

  Lemma at_set m h e : samePlaces (at_ (gset zeqb m h e)) (put (at_ m) h (Some e)).
  Proof. intros h'. apply (gget_gset zeqb zeqb_pe). Qed.
  Lemma at_del m h : samePlaces (at_ (gdel zeqb m h)) (put (at_ m) h None).
  Proof. intros h'. apply (gget_gdel zeqb zeqb_pe). Qed.
  Lemma same_refl (p : places (K := K) (V := V)) : samePlaces p p.
  Proof. now intros h. Qed.
  Hint Resolve at_set at_del same_refl : core.

  Lemma one_step (o : cOp K V) (s : cst) : ovf (cmap s) = None -> made s = [] ->
    let '(r, s') := stepC zero hash equal o s in
    ovf (cmap s') = None /\
    oneCall zero hash equal o (at_ (main (cmap s))) (user s) r (made s') (at_ (main (cmap s'))) (user s').
  Proof.
    destruct s as [[m ov] u l]. cbn. intros -> ->. unfold oneCall, at_ at 1.
    destruct o; cbn; unfold setC, deleteC, getC, cbind, askHash, askEqual, ask, getMap, putMap, cret; cbn;
      (destruct (hash k u) as [[h|] u1]; cbn; [|solve [repeat split; eauto]]);
      (destruct (gget zeqb m h) as [[mk mv]|] eqn:E; cbn;
        [destruct (equal mk k u1) as [[[]|] u2]; cbn|]); repeat (split; [reflexivity|]); eauto;
      eexists; (split; [reflexivity|]); unfold answerFree, answerHit, answerOther; auto.
  Qed.

  Lemma run_calls ops : forall s : cst, ovf (cmap s) = None ->
    allCalls zero hash equal (at_ (main (cmap s))) (user s) ops (fst (runC zero hash equal ops s)).
  Proof.
    induction ops as [|o ops IH]; intros s Hs; cbn; [constructor|].
    pose proof (one_step o {| cmap := cmap s; user := user s; made := [] |} Hs eq_refl) as H.
    destruct (stepC zero hash equal o _) as [r s'] eqn:E. destruct H as [Hs' H]. cbn in H.
    specialize (IH s' Hs'). destruct (runC zero hash equal ops s') as [rs s'']. cbn in *.
    econstructor; eassumption.
  Qed.
End CallsProofs.
