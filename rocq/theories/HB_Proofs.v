From Coq Require Import Lia.
From Verif Require Import Base Lin HB.
Local Open Scope list_scope.
Local Open Scope nat_scope.

Section HB.
  Context {Op R : Type}.
  Notation doings := (doings Op R).

  Lemma does_lt (tr : doings) i t a : does tr i t a -> i < List.length tr.
  Proof. intros H. apply nth_error_Some. unfold does in H. congruence. Qed.
  Lemma does_app (tr : doings) e i t a : does tr i t a -> does (tr ++ [e]) i t a.
  Proof. intros H. unfold does. rewrite nth_error_app1; [exact H|]. eapply does_lt, H. Qed.
  Lemma does_app_inv (tr : doings) e i t a : does (tr ++ [e]) i t a -> does tr i t a \/ (i = List.length tr /\ e = (t, a)).
  Proof.
    intros H. destruct (Nat.lt_ge_cases i (List.length tr)) as [L|L].
    - left. unfold does in *. now rewrite nth_error_app1 in H.
    - right. unfold does in H. rewrite nth_error_app2 in H by exact L. destruct (i - List.length tr) as [|d] eqn:E; cbn in H.
      + split; [lia|congruence].
      + destruct d; discriminate.
  Qed.
  Lemma does_last (tr : doings) t a : does (tr ++ [(t, a)]) (List.length tr) t a.
  Proof. unfold does. rewrite nth_error_app2, Nat.sub_diag by lia. reflexivity. Qed.

  Lemma hb_lt (tr : doings) i j : hb tr i j -> i < j.
  Proof. induction 1; lia. Qed.
  Lemma hb_bound (tr : doings) i j : hb tr i j -> j < List.length tr.
  Proof.
    induction 1 as [i j t a b _ _ H|i j _ [[_ [(t & b & H) _]]|(s & x & y & t & u & _ & H & _)]|];
      [eapply does_lt, H|eapply does_lt, H|eapply does_lt, H|assumption].
  Qed.
  Lemma hb_app (tr : doings) e i j : hb tr i j -> hb (tr ++ [e]) i j.
  Proof.
    induction 1 as [i j t a b L H1 H2|i j L [((t & b & H1) & (u & b' & H2) & H3)|(s & x & y & t & u & H1 & H2 & H3)]|i j k _ IH1 _ IH2].
    - eapply hb_program; eauto using does_app.
    - apply hb_sync; [exact L|left]. split; [eauto using does_app|]. split; [eauto using does_app|].
      intros m v d Hm H. apply does_app_inv in H. destruct H as [H|[H _]]; [exact (H3 _ _ _ Hm H)|].
      apply does_lt in H2. lia.
    - apply hb_sync; [exact L|right]. exists s, x, y, t, u. auto using does_app.
    - eapply hb_trans; eauto.
  Qed.

  (** [i] is known to goroutine [t]: it happens before all that [t] does from now on. *)
  Definition sees (tr : doings) (t i : nat) : Prop := exists j a, does tr j t a /\ (i = j \/ hb tr i j).
  Lemma sees_app tr e t i : sees tr t i -> sees (tr ++ [e]) t i.
  Proof. intros (j & a & H & [->|H2]); exists j, a; eauto using does_app, hb_app. Qed.
  Lemma sees_hb tr t i a : sees tr t i -> hb (tr ++ [(t, a)]) i (List.length tr).
  Proof.
    intros (j & b & H & C). assert (hb (tr ++ [(t, a)]) j (List.length tr)).
    { eapply hb_program; [eapply does_lt, H|apply does_app, H|apply does_last]. }
    destruct C as [->|C]; [assumption|]. eapply hb_trans; [apply hb_app, C|assumption].
  Qed.
  Lemma sees_own tr t i a : does tr i t a -> sees tr t i.
  Proof. intros H. exists i, a. auto. Qed.
  Lemma sees_via tr t i j : hb tr i j -> sees tr t j -> sees tr t i.
  Proof. intros H (k & a & D & [->|H2]); exists k, a; (split; [exact D|right]); [exact H|exact (hb_trans _ _ _ _ H H2)]. Qed.

  (** The last atomic write was number [i]. *)
  Definition lastWrite (tr : doings) (i : nat) : Prop :=
    (exists t b, does tr i t (AAtomic b true)) /\ forall m t b, i < m -> ~ does tr m t (AAtomic b true).
  Lemma lastWrite_keep tr i e : lastWrite tr i -> (forall t b, e <> (t, AAtomic b true)) -> lastWrite (tr ++ [e]) i.
  Proof.
    intros [(t & b & H) N] He. split; [eauto using does_app|]. intros m u d L D. apply does_app_inv in D.
    destruct D as [D|[_ D]]; [exact (N _ _ _ L D)|]. exact (He _ _ D).
  Qed.
  Lemma lastWrite_new tr t b : lastWrite (tr ++ [(t, AAtomic b true)]) (List.length tr).
  Proof.
    split; [exists t, b; apply does_last|]. intros m u d L D. apply does_lt in D. rewrite app_length in D. cbn in D. lia.
  Qed.
  Lemma observe tr i t b : lastWrite tr i -> sees (tr ++ [(t, AAtomic true b)]) t i.
  Proof.
    intros [(u & d & H) N]. exists (List.length tr), (AAtomic true b). split; [apply does_last|]. right.
    apply hb_sync; [eapply does_lt, H|left]. split; [eauto using does_app|]. split; [exists t, b; apply does_last|].
    intros m v c [L1 L2] D. apply does_app_inv in D. destruct D as [D|[-> _]]; [exact (N _ _ _ L1 D)|lia].
  Qed.
End HB.

Lemma events_app {Op R} (a b : doings Op R) : events (a ++ b) = events a ++ events b.
Proof. induction a as [|[t []] a IH]; cbn; now rewrite ?IH. Qed.
