(** Proofs about streams whose callbacks call Next on them. *)
From Coq Require Import Lia.
From Verif Require Import Base Arr Exn Stream_Model Stream_Spec Stream_Reent_Model Stream_Reent_Spec.
Local Open Scope exn_scope.
Local Open Scope list_scope.
Local Open Scope Z_scope.

Lemma Forall_upd {A} (P : A -> Prop) l i x : Forall P l -> P x -> Forall P (upd l i x).
Proof.
  intros H Hx. revert i. induction H as [|y l Hy H IH]; intros [|i]; cbn; auto.
Qed.
Lemma Forall_nth {A} (P : A -> Prop) l i x : Forall P l -> nth_error l i = Some x -> P x.
Proof. intros H E. apply nth_error_In in E. now rewrite Forall_forall in H; apply H. Qed.

Lemma bind_ok {st A B} (m : X st A) (f : A -> X st B) s r s' : xbind m f s = (r, s') ->
  (exists a s1, m s = (Ok a, s1) /\ f a s1 = (r, s')) \/
  (exists e, m s = (Panic e, s') /\ r = Panic e) \/ (m s = (Diverge, s') /\ r = Diverge).
Proof. unfold xbind. destruct (m s) as [[a|e|] s1]; intros H; [eauto|right; left|right; right]; injection H as <- <-; eauto. Qed.

Section Calm.
  Context {S W T : Type} (src : source S W T) (ok : S -> Prop) (P : rop W T -> Prop).
  Local Notation st := (rstream S W T).
  Hypothesis Hsrc : calmSource ok src.
  Hypothesis P_calm : forall o, P o -> calmOp o.
  Hypothesis P_skip : forall k, P (RSkip k) -> P (RSkip (k - 1)).
  Hypothesis P_limit : forall k, P (RLimit k) -> P (RLimit (k - 1)).

  Definition good (s : st) : Prop := Forall P (array s) /\ ok (origin s).
  (** What a panic tells. *)
  Definition okEnd {A} (r : outcome A) (s' : st) : Prop :=
    good s' /\ match r with Panic e => alive s' = false | _ => True end.
  (** The array never gets shorter. *)
  Lemma pull_same s r s' : pull src s = (r, s') -> alive s' = alive s /\ array s' = array s.
  Proof. unfold pull. destruct (sNext src (origin s, world s)) as [r0 [z w]]. intros E. injection E as _ <-. auto. Qed.
  Lemma pull_inv s r s' : ok (origin s) -> pull src s = (r, s') ->
    alive s' = alive s /\ array s' = array s /\ ok (origin s') /\ forall e, r <> Panic e.
  Proof.
    unfold pull. intros Ho. specialize (Hsrc (origin s) (world s) Ho). destruct (sNext src (origin s, world s)) as [r0 [z w]]. intros E.
    injection E as <- <-. cbn in *. intuition.
  Qed.

  Lemma panics_ended fuel :
    (forall A (c : code W T A) s r s', calm c -> good s -> run src A fuel c s = (r, s') -> okEnd r s') /\
    (forall s r s', good s -> rnext src fuel s = (r, s') -> okEnd r s') /\
    (forall s r s', good s -> rloop src fuel s = (r, s') -> okEnd r s') /\
    (forall n i v s r s', (n <= List.length (array s))%nat -> good s -> rstages src fuel n i v s = (r, s') -> okEnd r s' /\ True) /\
    (forall A (c : code W T A) s r s', run src A fuel c s = (r, s') -> List.length (array s') = List.length (array s)) /\
    (forall s r s', rnext src fuel s = (r, s') -> List.length (array s') = List.length (array s)) /\
    (forall s r s', rloop src fuel s = (r, s') -> List.length (array s') = List.length (array s)) /\
    (forall n i v s r s', rstages src fuel n i v s = (r, s') -> List.length (array s') = List.length (array s)).
  Proof.
    induction fuel as [|fuel (R & N & L & G & LR & LN & LL & LG)].
    { repeat apply conj; intros; cbn in *; match goal with H : (_, _) = (_, _) |- _ => injection H as <- <- end; unfold okEnd; auto. }
    assert (Hlen : (forall A (c : code W T A) s r s', run src A (Datatypes.S fuel) c s = (r, s') -> List.length (array s') = List.length (array s)) /\
      (forall s r s', rnext src (Datatypes.S fuel) s = (r, s') -> List.length (array s') = List.length (array s)) /\
      (forall s r s', rloop src (Datatypes.S fuel) s = (r, s') -> List.length (array s') = List.length (array s)) /\
      (forall n i v s r s', rstages src (Datatypes.S fuel) n i v s = (r, s') -> List.length (array s') = List.length (array s))).
    { split; [|split; [|split]].
      - intros A c s r s' E. cbn [run] in E. destruct c as [a|e|k|w k|k].
        + injection E as _ <-. reflexivity.
        + injection E as _ <-. reflexivity.
        + exact (LR _ _ _ _ _ E).
        + exact (LR _ _ _ _ _ E).
        + apply bind_ok in E as [(v & s1 & E1 & E2)|[(e & E1 & _)|[E1 _]]]; rewrite ?(LR _ _ _ _ _ E2); now rewrite (LN _ _ _ E1).
      - intros s r s' E. cbn [rnext] in E. unfold xbind at 1, xget in E. destruct (alive s); [exact (LL _ _ _ E)|]. injection E as _ <-. reflexivity.
      - intros s r s' E. cbn [rloop] in E. unfold xbind at 1, xget in E. destruct (alive s); cbn [negb] in E; [|injection E as _ <-; reflexivity].
        apply bind_ok in E as [(v & s1 & E1 & E2)|[(e & E1 & _)|[E1 _]]]; destruct (pull_same _ _ _ E1) as (_ & Ea); rewrite ?Ea; try reflexivity.
        rewrite <- Ea. destruct v as [v|]; [|injection E2 as _ <-; reflexivity].
        apply bind_ok in E2 as [(d & s2 & E3 & E4)|[(e & E3 & _)|[E3 _]]]; rewrite <- (LG _ _ _ _ _ _ E3); try reflexivity.
        destruct d; [injection E4 as _ <-; reflexivity|exact (LL _ _ _ E4)|injection E4 as _ <-; reflexivity].
      - intros n i v s r s' E. cbn [rstages] in E. unfold xbind at 1, xget in E. destruct (n <=? i)%nat; [injection E as _ <-; reflexivity|].
        destruct (nth_error (array s) i) as [[p|k|k|f|c]|]; [..|injection E as _ <-; reflexivity].
        + apply bind_ok in E as [(b & s1 & E1 & E2)|[(e & E1 & _)|[E1 _]]]; rewrite <- (LR _ _ _ _ _ E1); try reflexivity.
          destruct b; [exact (LG _ _ _ _ _ _ E2)|injection E2 as _ <-; reflexivity].
        + destruct (k >? 0); [|exact (LG _ _ _ _ _ _ E)]. unfold xbind, store in E. destruct (alive s); injection E as _ <-; cbn; now rewrite ?length_upd.
        + destruct (k >? 0); [|injection E as _ <-; reflexivity]. unfold xbind, store in E. destruct (alive s); [|injection E as _ <-; reflexivity].
          apply LG in E. rewrite E. cbn. now rewrite length_upd.
        + apply bind_ok in E as [(b & s1 & E1 & E2)|[(e & E1 & _)|[E1 _]]]; rewrite <- (LR _ _ _ _ _ E1); try reflexivity. exact (LG _ _ _ _ _ _ E2).
        + apply bind_ok in E as [(b & s1 & E1 & E2)|[(e & E1 & _)|[E1 _]]]; rewrite <- (LR _ _ _ _ _ E1); try reflexivity. exact (LG _ _ _ _ _ _ E2). }
    split; [|split; [|split; [|split; [|exact Hlen]]]].
    - intros A c s r s' Hc HP E. cbn [run] in E. inversion Hc; subst; clear Hc.
      + injection E as <- <-. split; auto.
      + eapply R; [|exact HP|exact E]. auto.
      + eapply R; [| |exact E]; assumption.
      + apply bind_ok in E as [(v & s1 & E1 & E2)|[(e & E1 & ->)|[E1 ->]]].
        * destruct (N _ _ _ HP E1) as [HP1 _]. eapply R; [|exact HP1|exact E2]. auto.
        * exact (N _ _ _ HP E1).
        * destruct (N _ _ _ HP E1). split; auto.
    - intros s r s' HP E. cbn [rnext] in E. unfold xbind at 1, xget in E. destruct (alive s); [exact (L _ _ _ HP E)|].
      injection E as <- <-. split; cbn; auto.
    - intros s r s' HP E. cbn [rloop] in E. unfold xbind at 1, xget in E. destruct (alive s) eqn:Ea; cbn [negb] in E; [|injection E as <- <-; split; auto].
      apply bind_ok in E as [(v & s1 & E1 & E2)|[(e & E1 & ->)|[E1 ->]]]; destruct (pull_inv _ _ _ (proj2 HP) E1) as (Eal & Ear & Ho1 & Hp).
      + assert (HP1 : good s1) by (split; [rewrite Ear; apply HP|exact Ho1]). assert (Hn1 : (List.length (array s) <= List.length (array s1))%nat) by (rewrite Ear; lia). destruct v as [v|]; [|injection E2 as <- <-; split; cbn; auto].
        apply bind_ok in E2 as [(d & s2 & E3 & E4)|[(e & E3 & ->)|[E3 ->]]].
        * destruct (G _ _ _ _ _ _ Hn1 HP1 E3) as [[HP2 _] _]. destruct d.
          -- injection E4 as <- <-. split; auto.
          -- exact (L _ _ _ HP2 E4).
          -- injection E4 as <- <-. split; cbn; auto.
        * exact (proj1 (G _ _ _ _ _ _ Hn1 HP1 E3)).
        * destruct (G _ _ _ _ _ _ Hn1 HP1 E3) as [[HP2 _] _]. split; auto.
      + exfalso. now apply (Hp e).
      + split; [split; [rewrite Ear; apply HP|exact Ho1]|exact I].
    - intros n i v s r s' Hn HP E. split; [|exact I]. cbn [rstages] in E. unfold xbind at 1, xget in E.
      destruct (n <=? i)%nat eqn:Ei; [injection E as <- <-; split; auto|]. apply Nat.leb_gt in Ei.
      destruct (nth_error (array s) i) as [o|] eqn:Eo; [|apply nth_error_None in Eo; lia].
      pose proof (Forall_nth _ _ _ _ (proj1 HP) Eo) as Ho. pose proof (P_calm _ Ho) as Hc. destruct o as [p|k|k|f|c]; cbn in Hc.
      + apply bind_ok in E as [(b & s1 & E1 & E2)|[(e & E1 & ->)|[E1 ->]]].
        * destruct (R _ _ _ _ _ (Hc v) HP E1) as [HP1 _]. destruct b; [|injection E2 as <- <-; split; auto].
          refine (proj1 (G _ _ _ _ _ _ _ HP1 E2)); rewrite (LR _ _ _ _ _ E1); lia.
        * exact (R _ _ _ _ _ (Hc v) HP E1).
        * destruct (R _ _ _ _ _ (Hc v) HP E1). split; auto.
      + destruct (k >? 0); [|exact (proj1 (G _ _ _ _ _ _ Hn HP E))]. unfold xbind, store in E. destruct (alive s) eqn:Ea; injection E as <- <-; split; auto.
        destruct HP as [HP1 HP2]. split; [apply Forall_upd; auto|exact HP2].
      + destruct (k >? 0); [|injection E as <- <-; split; auto]. unfold xbind, store in E. destruct (alive s) eqn:Ea; [|injection E as <- <-; split; auto].
        refine (proj1 (G _ _ _ _ _ _ _ _ E)); cbn; [now rewrite length_upd|].
        destruct HP as [HP1 HP2]. split; [apply Forall_upd; auto|exact HP2].
      + apply bind_ok in E as [(b & s1 & E1 & E2)|[(e & E1 & ->)|[E1 ->]]].
        * destruct (R _ _ _ _ _ (Hc v) HP E1) as [HP1 _].
          refine (proj1 (G _ _ _ _ _ _ _ HP1 E2)); rewrite (LR _ _ _ _ _ E1); lia.
        * exact (R _ _ _ _ _ (Hc v) HP E1).
        * destruct (R _ _ _ _ _ (Hc v) HP E1). split; auto.
      + apply bind_ok in E as [(b & s1 & E1 & E2)|[(e & E1 & ->)|[E1 ->]]].
        * destruct (R _ _ _ _ _ (Hc v) HP E1) as [HP1 _].
          refine (proj1 (G _ _ _ _ _ _ _ HP1 E2)); rewrite (LR _ _ _ _ _ E1); lia.
        * exact (R _ _ _ _ _ (Hc v) HP E1).
        * destruct (R _ _ _ _ _ (Hc v) HP E1). split; auto.
  Qed.
End Calm.

(** ** Map and Peek only *)
Section Pass.
  Context {S W T : Type} (src : source S W T) (ok : S -> Prop).
  Local Notation st := (rstream S W T).
  Hypothesis Hsrc : calmSource ok src.
  Definition smooth (o : rop W T) : Prop := calmOp o /\ passes o.
  Definition fine {A} (n : nat) (r : outcome A) (s' : st) : Prop :=
    (Forall smooth (array s') /\ ok (origin s')) /\ List.length (array s') = n /\ forall e, r <> Panic e.

  Lemma smooth_fine fuel :
    (forall A (c : code W T A) s r s', calm c -> Forall smooth (array s) /\ ok (origin s) -> run src A fuel c s = (r, s') -> fine (List.length (array s)) r s') /\
    (forall s r s', Forall smooth (array s) /\ ok (origin s) -> rnext src fuel s = (r, s') -> fine (List.length (array s)) r s') /\
    (forall s r s', alive s = true -> Forall smooth (array s) /\ ok (origin s) -> rloop src fuel s = (r, s') -> fine (List.length (array s)) r s') /\
    (forall n i v s r s', (n <= List.length (array s))%nat -> Forall smooth (array s) /\ ok (origin s) -> rstages src fuel n i v s = (r, s') ->
       fine (List.length (array s)) r s' /\ r <> Ok Reject).
  Proof.
    induction fuel as [|fuel (R & N & L & G)].
    { repeat apply conj; intros; cbn in *; match goal with H : (_, _) = (_, _) |- _ => injection H as <- <- end; unfold fine; repeat apply conj; try tauto; discriminate. }
    split; [|split; [|split]].
    - intros A c s r s' Hc HP E. cbn [run] in E. inversion Hc; subst; clear Hc.
      + injection E as <- <-. repeat apply conj; auto; try tauto; discriminate.
      + eapply R; [|exact HP|exact E]. auto.
      + eapply (R _ _ (mkR (alive s) (array s) (origin s) w)); eassumption.
      + apply bind_ok in E as [(v & s1 & E1 & E2)|[(e & E1 & ->)|[E1 ->]]]; destruct (N _ _ _ HP E1) as (HP1 & Hl1 & Hp).
        * rewrite <- Hl1. eapply R; [|exact HP1|exact E2]. auto.
        * exfalso. now apply (Hp e).
        * repeat apply conj; auto; try tauto; discriminate.
    - intros s r s' HP E. cbn [rnext] in E. unfold xbind at 1, xget in E. destruct (alive s) eqn:Ea; [exact (L _ _ _ Ea HP E)|].
      injection E as <- <-. repeat apply conj; cbn; auto; try tauto; discriminate.
    - intros s r s' Ea HP E. cbn [rloop] in E. unfold xbind at 1, xget in E. rewrite Ea in E. cbn [negb] in E.
      apply bind_ok in E as [(v & s1 & E1 & E2)|[(e & E1 & ->)|[E1 ->]]]; destruct (pull_inv _ _ Hsrc _ _ _ (proj2 HP) E1) as (Eal & Ear & Ho1 & Hp).
      + assert (HP1 : Forall smooth (array s1) /\ ok (origin s1)) by (split; [rewrite Ear; apply HP|exact Ho1]). assert (Hn1 : (List.length (array s) <= List.length (array s1))%nat) by (rewrite Ear; lia).
        rewrite <- Ear. destruct v as [v|]; [|injection E2 as <- <-; repeat apply conj; cbn; auto; try tauto; discriminate].
        apply bind_ok in E2 as [(d & s2 & E3 & E4)|[(e & E3 & ->)|[E3 ->]]]; destruct (G _ _ _ _ _ _ Hn1 HP1 E3) as [(HP2 & Hl2 & Hp2) Hr].
        * destruct d; [|congruence|]; injection E4 as <- <-; repeat apply conj; cbn; auto; try tauto; discriminate.
        * exfalso. now apply (Hp2 e).
        * repeat apply conj; auto; try tauto; discriminate.
      + exfalso. now apply (Hp e).
      + rewrite <- Ear. split; [split; [rewrite Ear; apply HP|exact Ho1]|]. split; [reflexivity|discriminate].
    - intros n i v s r s' Hn HP E. cbn [rstages] in E. unfold xbind at 1, xget in E.
      destruct (n <=? i)%nat eqn:Ei; [injection E as <- <-; repeat apply conj; auto; try tauto; discriminate|]. apply Nat.leb_gt in Ei.
      destruct (nth_error (array s) i) as [o|] eqn:Eo; [|apply nth_error_None in Eo; lia].
      destruct (Forall_nth _ _ _ _ (proj1 HP) Eo) as [Hc Hpass]. destruct o as [p|k|k|f|c]; try contradiction; cbn in Hc.
      all: apply bind_ok in E as [(b & s1 & E1 & E2)|[(e & E1 & ->)|[E1 ->]]]; destruct (R _ _ _ _ _ (Hc v) HP E1) as (HP1 & Hl1 & Hp1);
        [rewrite <- Hl1; refine (G _ _ _ _ _ _ _ HP1 E2); rewrite Hl1; exact Hn
        |exfalso; now apply (Hp1 e)
        |repeat apply conj; auto; try tauto; discriminate].
  Qed.
End Pass.

(** ** Limit counts the nested calls too *)
Section Limit.
  Context {S W T : Type} (src : source S W T) (obs : W -> Z) (bump : W -> W) (j : nat).
  Local Notation st := (rstream S W T).
  Hypothesis Hsrc : keepsSource obs src.
  Hypothesis Hbump : forall w, obs (bump w) = obs w + 1.

  (** A Limit at position [j] that lets [m] more through, a counting Peek next. *)
  Definition shape (m : Z) (l : list (rop W T)) : Prop :=
    nth_error l j = Some (RLimit m) /\ nth_error l (j + 1) = Some (counting bump) /\ 0 <= m /\
    forall i o, nth_error l i = Some o -> i <> (j + 1)%nat -> keepsOp obs o.
  Definition within (C : Z) (s : st) : Prop := exists m, shape m (array s) /\ obs (world s) + m <= C.

  Lemma shape_upd m l i o : (i < List.length l)%nat -> shape m l -> i <> (j + 1)%nat -> i <> j -> keepsOp obs o -> shape m (upd l i o).
  Proof.
    intros Hl (H1 & H2 & H3 & H4) Hi Hj Ho. repeat split; auto; rewrite ?nth_error_upd by exact Hl.
    - destruct (Nat.eqb_spec j i); [congruence|]. exact H1.
    - destruct (Nat.eqb_spec (j + 1) i); [congruence|]. exact H2.
    - intros i' o'. rewrite nth_error_upd by exact Hl. destruct (Nat.eqb_spec i' i); [|apply H4].
      intros E; injection E as <-. auto.
  Qed.
  Lemma shape_down m l : 0 < m -> shape m l -> shape (m - 1) (upd l j (RLimit (m - 1))).
  Proof.
    intros Hm (H1 & H2 & H3 & H4).
    assert (Hl : (j < List.length l)%nat) by (apply nth_error_Some; congruence).
    repeat split; rewrite ?nth_error_upd by exact Hl; [now rewrite Nat.eqb_refl| |lia|].
    - destruct (Nat.eqb_spec (j + 1) j); [lia|]. exact H2.
    - intros i' o'. rewrite nth_error_upd by exact Hl. destruct (Nat.eqb_spec i' j); [|apply H4].
      intros E; injection E as <-. exact (fun _ => I).
  Qed.
  Lemma within_pull C s r s' : within C s -> pull src s = (r, s') -> within C s'.
  Proof.
    intros (m & H1 & H2). unfold pull. pose proof (Hsrc (origin s) (world s)) as HK.
    destruct (sNext src (origin s, world s)) as [r0 [z w]]. intros E. injection E as _ <-. exists m. cbn in *. rewrite HK. auto.
  Qed.

  Lemma limit_within C fuel :
    (forall A (c : code W T A) s r s', keeps obs (obs (world s)) c -> within C s -> run src A fuel c s = (r, s') -> within C s') /\
    (forall s r s', within C s -> rnext src fuel s = (r, s') -> within C s') /\
    (forall s r s', within C s -> rloop src fuel s = (r, s') -> within C s') /\
    (forall n i v s r s', (if Nat.eqb i (j + 1) then within (C - 1) s else within C s) -> rstages src fuel n i v s = (r, s') -> within C s').
  Proof.
    assert (Hweak : forall s : st, within (C - 1) s -> within C s) by (intros s (m & ? & ?); exists m; split; [assumption|lia]).
    assert (Hcl : forall s : st, within C s -> within C (mkR false (array s) (origin s) (world s))) by (intros s (m & ? & ?); now exists m).
    induction fuel as [|fuel (R & N & L & G)].
    { repeat split; intros; cbn in *; match goal with H : (_, _) = (_, _) |- _ => injection H as _ <- end; auto. destruct (Nat.eqb i (j + 1)); auto. }
    split; [|split; [|split]].
    - intros A c s r s' Hc HP E. cbn [run] in E. inversion Hc; subst; clear Hc.
      + injection E as _ <-. exact HP.
      + injection E as _ <-. exact HP.
      + refine (R _ _ s r s' _ HP E). auto.
      + refine (R _ _ (mkR (alive s) (array s) (origin s) w) r s' _ _ E); cbn; [congruence|].
        destruct HP as (m & ? & ?). exists m. cbn. split; [assumption|]. congruence.
      + apply bind_ok in E as [(v & s1 & E1 & E2)|[(e & E1 & _)|[E1 _]]]; pose proof (N _ _ _ HP E1) as HP1; auto.
        refine (R _ _ s1 r s' _ HP1 E2). auto.
    - intros s r s' HP E. cbn [rnext] in E. unfold xbind at 1, xget in E. destruct (alive s) eqn:Ea; [exact (L _ _ _ HP E)|].
      injection E as _ <-. auto.
    - intros s r s' HP E. cbn [rloop] in E. unfold xbind at 1, xget in E. destruct (alive s); cbn [negb] in E; [|injection E as _ <-; exact HP].
      apply bind_ok in E as [(v & s1 & E1 & E2)|[(e & E1 & _)|[E1 _]]]; pose proof (within_pull _ _ _ _ HP E1) as HP1; auto.
      destruct v as [v|]; [|injection E2 as _ <-; auto].
      assert (HP1' : if Nat.eqb 0 (j + 1) then within (C - 1) s1 else within C s1) by (destruct (Nat.eqb_spec 0 (j + 1)); [lia|exact HP1]).
      apply bind_ok in E2 as [(d & s2 & E3 & E4)|[(e & E3 & _)|[E3 _]]]; pose proof (G _ _ _ _ _ _ HP1' E3) as HP2; auto.
      destruct d; [injection E4 as _ <-; auto|exact (L _ _ _ HP2 E4)|injection E4 as _ <-; auto].
    - intros n i v s r s' HP E. cbn [rstages] in E. unfold xbind at 1, xget in E.
      assert (HPw : within C s) by (destruct (Nat.eqb i (j + 1)); auto).
      destruct (n <=? i)%nat; [injection E as _ <-; exact HPw|].
      destruct (nth_error (array s) i) as [o|] eqn:Eo; [|injection E as _ <-; exact HPw].
      destruct (Nat.eqb_spec i (j + 1)) as [->|Hij].
      + (* the counting Peek *)
        destruct HP as (m & Hsh & HC). pose proof Hsh as (H1 & H2 & H3 & H4). rewrite H2 in Eo. injection Eo as <-.
        unfold counting in E. apply bind_ok in E as [(b & s1 & E1 & E2)|[(e & E1 & _)|[E1 _]]].
        * refine (G _ _ _ s1 _ _ _ E2). destruct (Nat.eqb_spec (j + 1 + 1) (j + 1)); [lia|].
          destruct fuel as [|[|[|fuel]]]; try discriminate E1. cbn in E1. injection E1 as _ <-. exists m. cbn. rewrite Hbump. split; [exact Hsh|lia].
        * destruct fuel as [|[|[|fuel]]]; discriminate E1.
        * destruct fuel as [|[|[|fuel]]]; cbn in E1; inversion E1; subst; exists m; cbn; rewrite ?Hbump; split; try exact Hsh; lia.
      + assert (Hnext : forall s1, within C s1 -> i <> j -> if Nat.eqb (i + 1) (j + 1) then within (C - 1) s1 else within C s1).
        { intros s1 H Hi. destruct (Nat.eqb_spec (i + 1) (j + 1)); [lia|exact H]. }
        assert (Hl : (i < List.length (array s))%nat) by (apply nth_error_Some; congruence).
        destruct HP as (m & Hsh & HC). pose proof Hsh as (H1 & H2 & H3 & H4). pose proof (H4 _ _ Eo Hij) as Hk.
        assert (Hcb : forall A (c : code W T A) k, (forall n, keeps obs n c) -> i <> j -> (forall a s1, within C s1 -> i <> j -> k a s1 = (r, s') -> within C s') ->
          xbind (run src A fuel c) k s = (r, s') -> within C s').
        { intros A c k Hkc Hi Hrest E0. apply bind_ok in E0 as [(b & s1 & E1 & E2)|[(e & E1 & _)|[E1 _]]];
            pose proof (R _ _ _ _ _ (Hkc _) HPw E1) as HP1; auto. exact (Hrest b s1 HP1 Hi E2). }
        destruct o as [p|k|k|f|c]; cbn in Hk.
        * assert (Hi : i <> j) by (intros ->; congruence). refine (Hcb _ _ _ (Hk v) Hi _ E). intros b s1 HP1 _ E2.
          destruct b; [exact (G _ _ _ _ _ _ (Hnext s1 HP1 Hi) E2)|injection E2 as _ <-; exact HP1].
        * assert (Hi : i <> j) by (intros ->; congruence). destruct (k >? 0); [|exact (G _ _ _ _ _ _ (Hnext s HPw Hi) E)].
          unfold xbind, store in E. destruct (alive s); injection E as _ <-; [|exact HPw]. exists m. cbn. split; [|exact HC]. now apply shape_upd.
        * destruct (k >? 0) eqn:Ek; [|injection E as _ <-; exact HPw]. unfold xbind, store in E. destruct (alive s); [|injection E as _ <-; exact HPw].
          refine (G _ _ _ _ _ _ _ E). destruct (Nat.eqb_spec (i + 1) (j + 1)) as [Eq|Hne].
          -- assert (i = j) as -> by lia. rewrite H1 in Eo. injection Eo as <-. exists (m - 1). cbn. split; [apply shape_down; [lia|exact Hsh]|lia].
          -- exists m. cbn. split; [|exact HC]. apply shape_upd; auto; lia || exact I.
        * assert (Hi : i <> j) by (intros ->; congruence). refine (Hcb _ _ _ (Hk v) Hi _ E). intros b s1 HP1 _ E2.
          exact (G _ _ _ _ _ _ (Hnext s1 HP1 Hi) E2).
        * assert (Hi : i <> j) by (intros ->; congruence). refine (Hcb _ _ _ (Hk v) Hi _ E). intros b s1 HP1 _ E2.
          exact (G _ _ _ _ _ _ (Hnext s1 HP1 Hi) E2).
  Qed.
End Limit.

(** ** Callbacks that do not call Next *)
Section Same.
  Context {S W T : Type} (src : source S W T).

  Lemma run_plain A (f : X W A) fuel a l (z : S) (w : W) r w' : f w = (r, w') -> r <> Diverge -> (3 <= fuel)%nat ->
    run src A fuel (plain f) (mkR a l z w) = (r, mkR a l z w').
  Proof.
    intros E Hr Hf. destruct fuel as [|[|[|fuel]]]; try lia. cbn. rewrite E. destruct r; try reflexivity. congruence.
  Qed.

  Lemma stages_same todo : forall done v (z : S) w r ops' w',
    stages done todo v (done ++ todo, w) = (r, (ops', w')) -> r <> Diverge ->
    exists N, forall fuel, (N <= fuel)%nat ->
      rstages src fuel (List.length (done ++ todo)) (List.length done) v (mkR true (map plainOp (done ++ todo)) z w)
        = (r, mkR true (map plainOp ops') z w').
  Proof.
    induction todo as [|o todo IH]; intros done v z w r ops' w' E Hr.
    - cbn [stages] in E. injection E as <- <- <-. exists 1%nat. intros [|fuel] Hf; [lia|]. cbn [rstages]. unfold xbind, xget.
      rewrite app_nil_r, (proj2 (Nat.leb_le _ _)) by lia. reflexivity.
    - assert (Hlen : List.length (done ++ o :: todo) = (List.length done + Datatypes.S (List.length todo))%nat) by (rewrite app_length; reflexivity).
      assert (Hnth : nth_error (map plainOp (done ++ o :: todo)) (List.length done) = Some (plainOp o)).
      { rewrite map_app. cbn [map]. rewrite nth_error_app2; rewrite map_length; [|lia]. now rewrite Nat.sub_diag. }
      assert (Hstep : forall fuel (s : rstream S W T), array s = map plainOp (done ++ o :: todo) ->
        rstages src (Datatypes.S fuel) (List.length (done ++ o :: todo)) (List.length done) v s =
        match plainOp o with
        | RPred p => b <- run src bool fuel (p v) ;; if b : bool then rstages src fuel (List.length (done ++ o :: todo)) (List.length done + 1) v else xret Reject
        | RSkip k => if k >? 0 then store (List.length done) (RSkip (k - 1)) ;; xret Reject else rstages src fuel (List.length (done ++ o :: todo)) (List.length done + 1) v
        | RLimit k => if k >? 0 then store (List.length done) (RLimit (k - 1)) ;; rstages src fuel (List.length (done ++ o :: todo)) (List.length done + 1) v else xret Stop
        | RMap f => v' <- run src T fuel (f v) ;; rstages src fuel (List.length (done ++ o :: todo)) (List.length done + 1) v'
        | RPeek c => run src unit fuel (c v) ;; rstages src fuel (List.length (done ++ o :: todo)) (List.length done + 1) v
        end s).
      { intros fuel s Hs. cbn [rstages]. unfold xbind at 1, xget. rewrite (proj2 (Nat.leb_gt _ _)) by lia. rewrite Hs, Hnth. reflexivity. }
      assert (Hgo : forall o' v' w1, stages (done ++ [o']) todo v' (done ++ o' :: todo, w1) = (r, (ops', w')) ->
        exists N, forall fuel, (N <= fuel)%nat ->
          rstages src fuel (List.length (done ++ o :: todo)) (List.length done + 1) v' (mkR true (map plainOp (done ++ o' :: todo)) z w1)
            = (r, mkR true (map plainOp ops') z w')).
      { intros o' v' w1 E1. destruct (IH (done ++ [o']) v' z w1 r ops' w') as (N & HN).
        - rewrite <- app_assoc. exact E1. - exact Hr.
        - exists N. intros fuel Hf. specialize (HN fuel Hf). rewrite <- app_assoc in HN. cbn [app] in HN.
          rewrite !app_length in *. cbn [List.length] in *. exact HN. }
      assert (Hup : forall o', upd (map plainOp (done ++ o :: todo)) (List.length done) (plainOp o') = map plainOp (done ++ o' :: todo)).
      { intros o'. rewrite !map_app. cbn [map]. rewrite <- (map_length plainOp done). apply upd_app. }
      cbn [stages] in E. destruct o as [p|k|k|f|c]; cbn [plainOp] in Hstep.
      + apply bind_ok in E as [(b & s1 & E1 & E2)|[(e & E1 & ->)|[E1 ->]]]; [..|congruence]; unfold onWorld in E1; destruct (p v w) as [r1 w1] eqn:Ep.
        * injection E1 as -> <-. destruct b.
          -- destruct (Hgo _ _ _ E2) as (N & HN). exists (N + 4)%nat. intros [|fuel] Hf; [lia|]. rewrite Hstep by reflexivity.
             unfold xbind. rewrite (run_plain _ _ fuel _ _ _ _ _ _ Ep) by (discriminate || lia). apply HN. lia.
          -- injection E2 as <- <- <-. exists 4%nat. intros [|fuel] Hf; [lia|]. rewrite Hstep by reflexivity.
             unfold xbind. now rewrite (run_plain _ _ fuel _ _ _ _ _ _ Ep) by (discriminate || lia).
        * injection E1 as -> <- <-. exists 4%nat. intros [|fuel] Hf; [lia|]. rewrite Hstep by reflexivity.
          unfold xbind. now rewrite (run_plain _ _ fuel _ _ _ _ _ _ Ep) by (discriminate || lia).
      + destruct (k >? 0) eqn:Ek.
        * cbn in E. injection E as <- <- <-. exists 1%nat. intros [|fuel] Hf; [lia|]. rewrite Hstep by reflexivity. rewrite ?Ek.
          unfold xbind, store. cbn [alive array origin world]. pose proof (Hup (OSkip (k - 1))) as U. cbn [plainOp] in U. now rewrite U.
        * destruct (Hgo _ _ _ E) as (N & HN). exists (N + 1)%nat. intros [|fuel] Hf; [lia|]. rewrite Hstep by reflexivity. rewrite ?Ek. apply HN. lia.
      + destruct (k >? 0) eqn:Ek.
        * unfold xbind at 1 2, xget, xput in E. cbn [snd] in E. destruct (Hgo _ _ _ E) as (N & HN). exists (N + 1)%nat. intros [|fuel] Hf; [lia|].
          rewrite Hstep by reflexivity. rewrite ?Ek. unfold xbind at 1, store. cbn [alive array origin world]. pose proof (Hup (OLimit (k - 1))) as U. cbn [plainOp] in U. rewrite U. apply HN. lia.
        * injection E as <- <- <-. exists 1%nat. intros [|fuel] Hf; [lia|]. rewrite Hstep by reflexivity. rewrite ?Ek. reflexivity.
      + apply bind_ok in E as [(b & s1 & E1 & E2)|[(e & E1 & ->)|[E1 ->]]]; [..|congruence]; unfold onWorld in E1; destruct (f v w) as [r1 w1] eqn:Ep.
        * injection E1 as -> <-. destruct (Hgo _ _ _ E2) as (N & HN). exists (N + 4)%nat. intros [|fuel] Hf; [lia|]. rewrite Hstep by reflexivity.
          unfold xbind. rewrite (run_plain _ _ fuel _ _ _ _ _ _ Ep) by (discriminate || lia). apply HN. lia.
        * injection E1 as -> <- <-. exists 4%nat. intros [|fuel] Hf; [lia|]. rewrite Hstep by reflexivity.
          unfold xbind. now rewrite (run_plain _ _ fuel _ _ _ _ _ _ Ep) by (discriminate || lia).
      + apply bind_ok in E as [(b & s1 & E1 & E2)|[(e & E1 & ->)|[E1 ->]]]; [..|congruence]; unfold onWorld in E1; destruct (c v w) as [r1 w1] eqn:Ep.
        * injection E1 as -> <-. destruct (Hgo _ _ _ E2) as (N & HN). exists (N + 4)%nat. intros [|fuel] Hf; [lia|]. rewrite Hstep by reflexivity.
          unfold xbind. rewrite (run_plain _ _ fuel _ _ _ _ _ _ Ep) by (discriminate || lia). apply HN. lia.
        * injection E1 as -> <- <-. exists 4%nat. intros [|fuel] Hf; [lia|]. rewrite Hstep by reflexivity.
          unfold xbind. now rewrite (run_plain _ _ fuel _ _ _ _ _ _ Ep) by (discriminate || lia).
  Qed.

  Lemma loop_same fuel : forall opl hp z w r s' z' w', nextLoop src fuel (mkStream true opl hp, (z, w)) = (r, (s', (z', w'))) -> r <> Diverge ->
    exists N l, (live s' = true -> l = map plainOp (ops s')) /\ forall fuel', (N <= fuel')%nat ->
      rloop src fuel' (mkR true (map plainOp opl) z w) = (r, mkR (live s') l z' w').
  Proof.
    induction fuel as [|fuel IH]; intros opl hp z w r s' z' w' E Hr; [injection E as <- _ _ _; congruence|].
    cbn [nextLoop] in E. unfold xbind at 1, onSource in E. destruct (sNext src (z, w)) as [r1 [z1 w1]] eqn:Es.
    assert (Hstep : forall n, rloop src (Datatypes.S n) (mkR true (map plainOp opl) z w) =
      (v <- (fun s => (r1, mkR true (map plainOp opl) z1 w1)) ;;
       match v with
       | None => rclear ;; xret None
       | Some v => r <- rstages src n (List.length (map (@plainOp W T) opl)) 0 v ;;
          match r with Emit v => xret (Some v) | Reject => rloop src n | Stop => rclear ;; xret None end
       end) (mkR true (map plainOp opl) z w)).
    { intros n. cbn [rloop]. unfold xbind at 1, xget. cbn [alive negb array]. unfold xbind at 1, pull. cbn [origin world alive array]. rewrite Es. reflexivity. }
    destruct r1 as [[v|]|e|].
    - unfold xbind at 1, runStages in E. destruct (stages [] opl v (opl, w1)) as [d [ops1 w2]] eqn:Est.
      cbn [Stream_Model.ops live hasPred] in E. rewrite Est in E.
      assert (Hd : d <> Diverge) by (intros ->; injection E as <- _ _ _; congruence).
      destruct (stages_same opl [] v z1 w1 d ops1 w2 Est Hd) as (N & HN). cbn [app List.length] in HN.
      destruct d as [[v'| |]|e|]; [..|congruence].
      + injection E as <- <- <- <-. exists (N + 1)%nat, (map plainOp ops1). split; [reflexivity|]. intros [|n] Hn; [lia|]. rewrite Hstep, map_length.
        unfold xbind. rewrite HN by lia. reflexivity.
      + destruct (IH _ _ _ _ _ _ _ _ E Hr) as (N2 & l & Hl & HN2). exists (N + N2 + 1)%nat, l. split; [exact Hl|]. intros [|n] Hn; [lia|]. rewrite Hstep, map_length.
        unfold xbind. rewrite HN by lia. apply HN2. lia.
      + injection E as <- <- <- <-. exists (N + 1)%nat, (map plainOp ops1). split; [discriminate|]. intros [|n] Hn; [lia|]. rewrite Hstep, map_length.
        unfold xbind. rewrite HN by lia. reflexivity.
      + injection E as <- <- <- <-. exists (N + 1)%nat, (map plainOp ops1). split; [reflexivity|]. intros [|n] Hn; [lia|]. rewrite Hstep, map_length.
        unfold xbind. rewrite HN by lia. reflexivity.
    - injection E as <- <- <- <-. exists 1%nat, (map plainOp opl). split; [discriminate|]. intros [|n] Hn; [lia|]. rewrite Hstep. reflexivity.
    - injection E as <- <- <- <-. exists 1%nat, (map plainOp opl). split; [reflexivity|]. intros [|n] Hn; [lia|]. rewrite Hstep. reflexivity.
    - injection E as <- _ _ _. congruence.
  Qed.
End Same.

(** ** A callback that combines an element with the next one *)
Section Fold.
  Context {S W T : Type} (src : source S W T) (D : S -> list T -> Z -> Prop) (f : T -> option T -> T).
  Hypothesis L : delivers (fun _ : W => tt) src D.

  Lemma fold_ok l : forall z b w, D z l b -> exists N z' w', forall fuel, (N <= fuel)%nat ->
    rnext src fuel (mkR true [combining f] z w) = (Ok (fold_right (fun x r => Some (f x r)) None l), mkR false [combining f] z' w').
  Proof.
    induction l as [|x l IH]; intros z b w HD.
    - destruct (del_end _ _ _ L z b w HD) as (z1 & w1 & E & _). exists 2%nat, z1, w1. intros [|[|fuel]] Hf; try lia.
      cbn [rnext]. unfold xbind at 1, xget. cbn [alive rloop]. unfold xbind at 1, xget. cbn [alive negb]. unfold xbind at 1, pull. cbn [origin world].
      rewrite E. reflexivity.
    - destruct (del_next _ _ _ L z x l b w HD) as (z1 & w1 & E & HD1 & _). destruct (IH z1 b w1 HD1) as (N & z2 & w2 & HN).
      exists (N + 5)%nat, z2, w2. intros [|[|[|[|fuel]]]] Hf; try lia.
      cbn [rnext]. unfold xbind at 1, xget. cbn [alive]. cbn [rloop]. unfold xbind at 1, xget. cbn [alive negb array]. unfold xbind at 1, pull. cbn [origin world].
      rewrite E. cbn [alive array List.length]. cbn [rstages]. unfold xbind at 1. unfold xbind at 1, xget. cbn [Nat.leb array nth_error combining].
      cbn [run]. unfold xbind at 1. unfold xbind at 1. rewrite HN by lia. destruct fuel as [|fuel]; [lia|]. reflexivity.
  Qed.
End Fold.

Lemma rnexts_inv {S W T} (src : source S W T) (I : rstream S W T -> Prop) (Q : outcome (option T) -> Prop) :
  (forall fuel s r s', I s -> rnext src fuel s = (r, s') -> I s' /\ Q r) ->
  forall fuels s, I s -> I (snd (rnexts src fuels s)) /\ Forall Q (fst (rnexts src fuels s)).
Proof.
  intros H fuels. induction fuels as [|fuel fuels IH]; intros s Hs; cbn [rnexts]; [split; [exact Hs|constructor]|].
  destruct (rnext src fuel s) as [r s1] eqn:E. destruct (H _ _ _ _ Hs E) as [H1 H2]. specialize (IH s1 H1).
  destruct (rnexts src fuels s1) as [rs s2]. cbn in *. intuition.
Qed.
