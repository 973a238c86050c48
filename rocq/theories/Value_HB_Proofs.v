From Coq Require Import Lia.
From Verif Require Import Base Lin HB HB_Proofs Value_Model Value_HB_Model Value_HB_Spec.
Local Open Scope list_scope.
Local Open Scope nat_scope.

Section Proofs.
  Context {T : Type} (zero : T) (eqb : T -> T -> bool) (m0 : memory T) (v0 : T).
  Hypothesis Hm0 : (m0 = zeroValue /\ v0 = zero) \/ m0 = newValue v0.
  Let n0 := List.length (heap m0).
  Notation doings := (doings (op T) (res T)).
  Notation cell m l := (nth_error (heap m) l).

  (** Goroutine [u] knows the call that brought [v]. *)
  Definition got (tr : doings) (u : nat) (v : T) : Prop :=
    v = v0 \/ exists i t o, does tr i t (ACall o) /\ brings o v /\ sees tr u i.
  (** Write number [iw] made the cell [l] for [v], on behalf of call number [i]. *)
  Definition made (tr : doings) (i iw t l : nat) (v : T) : Prop :=
    exists o, does tr i t (ACall o) /\ brings o v /\ i < iw /\ does tr iw t (APlain true l).
  Definition has (tr : doings) (u l : nat) (v : T) : Prop :=
    (l < n0 /\ v = v0) \/ exists i iw t, made tr i iw t l v /\ sees tr u iw.
  Definition own (tr : doings) (u l : nat) (v : T) : Prop := exists i iw, made tr i iw u l v.
  Definition pointed (tr : doings) (l : nat) (v : T) : Prop :=
    (l < n0 /\ v = v0) \/ exists i iw t j a, made tr i iw t l v /\ lastWrite tr j /\ does tr j t a /\ iw < j.

  Lemma made_app tr e i iw t l v : made tr i iw t l v -> made (tr ++ [e]) i iw t l v.
  Proof. intros (o & H1 & H2 & H3 & H4). exists o. auto using does_app. Qed.
  Lemma got_app tr e u v : got tr u v -> got (tr ++ [e]) u v.
  Proof. intros [H|(i & t & o & H1 & H2 & H3)]; [now left|right]. exists i, t, o. auto using does_app, sees_app. Qed.
  Lemma has_app tr e u l v : has tr u l v -> has (tr ++ [e]) u l v.
  Proof. intros [H|(i & iw & t & H1 & H2)]; [now left|right]. exists i, iw, t. auto using made_app, sees_app. Qed.
  Lemma own_app tr e u l v : own tr u l v -> own (tr ++ [e]) u l v.
  Proof. intros (i & iw & H). exists i, iw. now apply made_app. Qed.
  Lemma has_got tr u l v : has tr u l v -> got tr u v.
  Proof.
    intros [[_ H]|(i & iw & t & (o & H1 & H2 & H3 & H4) & S)]; [now left|right]. exists i, t, o. split; [exact H1|split; [exact H2|]].
    eapply sees_via; [|exact S]. eapply hb_program; eauto.
  Qed.
  Lemma pointed_keep tr e l v : pointed tr l v -> (forall t b, e <> (t, AAtomic b true)) -> pointed (tr ++ [e]) l v.
  Proof.
    intros [H|(i & iw & t & j & a & H1 & H2 & H3 & H4)] He; [now left|right].
    exists i, iw, t, j, a. split; [now apply made_app|]. split; [now apply lastWrite_keep|]. auto using does_app.
  Qed.
  Lemma pointed_has tr t b l v : pointed tr l v -> has (tr ++ [(t, AAtomic true b)]) t l v.
  Proof.
    intros [H|(i & iw & u & j & a & H1 & H2 & H3 & H4)]; [now left|right]. exists i, iw, u. split; [now apply made_app|].
    eapply sees_via; [|apply observe; exact H2]. destruct H1 as (o & _ & _ & _ & H1).
    eapply hb_program; [exact H4|apply does_app, H1|apply does_app, H3].
  Qed.
  Lemma own_pointed tr t b l v : own tr t l v -> pointed (tr ++ [(t, AAtomic b true)]) l v.
  Proof.
    intros (i & iw & H). right. exists i, iw, t, (List.length tr). eexists. split; [now apply made_app|].
    split; [apply lastWrite_new|]. split; [apply does_last|]. destruct H as (o & _ & _ & _ & H). eapply does_lt, H.
  Qed.

  Definition casDeref (old new : T) (l : nat) : prog T :=
    Deref l (fun v => if negb (eqb v old) then Ret (RBool false) else replace eqb old new (Some l)).
  (** Where a call can be. *)
  Inductive Pt (tr : doings) (m : memory T) (u : nat) : op T -> prog T -> Prop :=
  | P_start o : Pt tr m u o (code zero eqb o)
  | P_deref o l v : o = Load \/ (exists x, o = Swap x) -> cell m l = Some v -> has tr u l v -> Pt tr m u o (Deref l (fun v => Ret (RVal v)))
  | P_store x l : cell m l = Some x -> own tr u l x -> Pt tr m u (Store x) (StorePointer l (Ret RUnit))
  | P_swap x l : cell m l = Some x -> own tr u l x -> Pt tr m u (Swap x) (SwapPointer l (fun p =>
      match p with None => Ret (RVal zero) | Some l' => Deref l' (fun v => Ret (RVal v)) end))
  | P_casd old new l v : cell m l = Some v -> has tr u l v -> Pt tr m u (CompareAndSwap old new) (casDeref old new l)
  | P_cnew old new p v : eqb v old = true -> got tr u v ->
      Pt tr m u (CompareAndSwap old new) (New new (fun l => CompareAndSwapPointer p l (fun b => Ret (RBool b))))
  | P_cas old new p l v : eqb v old = true -> got tr u v -> cell m l = Some new -> own tr u l new ->
      Pt tr m u (CompareAndSwap old new) (CompareAndSwapPointer p l (fun b => Ret (RBool b)))
  | P_ret o r : (tells o r -> exists v, saw eqb o r v /\ got tr u v) -> Pt tr m u o (Ret r).

  Lemma Pt_app tr e m m' u o k : (forall l v, cell m l = Some v -> cell m' l = Some v) -> Pt tr m u o k -> Pt (tr ++ [e]) m' u o k.
  Proof.
    intros HM H. destruct H as [o|o l v H1 H2 H3|x l H1 H2|x l H1 H2|old new l v H1 H2|old new p v H1 H2|old new p l v H1 H2 H3 H4|o r H].
    - apply P_start.
    - eapply P_deref; eauto using has_app.
    - apply P_store; auto using own_app.
    - apply P_swap; auto using own_app.
    - eapply P_casd; eauto using has_app.
    - eapply P_cnew; eauto using got_app.
    - eapply P_cas; eauto using got_app, own_app.
    - apply P_ret. intros W. destruct (H W) as (v & S & G). eauto using got_app.
  Qed.

  Record Inv (tr : doings) (c : state T) : Prop := {
    v_calls : forall u o k, thread c u = Run o k -> (exists i, does tr i u (ACall o)) /\ Pt tr (shared c) u o k;
    v_ptr : match ptr (shared c) with
            | None => v0 = zero
            | Some l => exists v, cell (shared c) l = Some v /\ pointed tr l v
            end;
    v_size : n0 <= List.length (heap (shared c));
    v_plain : forall i t b l, does tr i t (APlain b l) -> l < List.length (heap (shared c)) /\ (b = true -> n0 <= l);
    v_order : forall i j t u b l, does tr i t (APlain true l) -> does tr j u (APlain b l) -> i <> j -> b = false /\ hb tr i j;
    v_return : forall n t o r, does tr n t (AReturn o r) -> tells o r ->
      exists v, saw eqb o r v /\ (v = v0 \/ exists i u o', does tr i u (ACall o') /\ brings o' v /\ hb tr i n) }.

  (** Parts that a step that makes no plain access and no return keeps. *)
  Lemma plain_keep (tr : doings) e (m m' : memory T) : (forall t b l, e <> (t, APlain b l)) -> List.length (heap m) <= List.length (heap m') ->
    (forall i t b l, does tr i t (APlain b l) -> l < List.length (heap m) /\ (b = true -> n0 <= l)) ->
    (forall i t b l, does (tr ++ [e]) i t (APlain b l) -> l < List.length (heap m') /\ (b = true -> n0 <= l)).
  Proof. intros He HL H i t b l D. apply does_app_inv in D. destruct D as [D|[_ D]]; [destruct (H _ _ _ _ D); split; [lia|assumption]|now apply He in D]. Qed.
  Lemma order_keep (tr : doings) e : (forall t b l, e <> (t, APlain b l)) ->
    (forall i j t u b l, does tr i t (APlain true l) -> does tr j u (APlain b l) -> i <> j -> b = false /\ hb tr i j) ->
    (forall i j t u b l, does (tr ++ [e]) i t (APlain true l) -> does (tr ++ [e]) j u (APlain b l) -> i <> j -> b = false /\ hb (tr ++ [e]) i j).
  Proof.
    intros He H i j t u b l D1 D2 N. apply does_app_inv in D1. apply does_app_inv in D2.
    destruct D1 as [D1|[_ D1]]; [|now apply He in D1]. destruct D2 as [D2|[_ D2]]; [|now apply He in D2].
    destruct (H _ _ _ _ _ _ D1 D2 N). auto using hb_app.
  Qed.
  Lemma return_keep (tr : doings) e : (forall t o r, e <> (t, AReturn o r)) ->
    (forall n t o r, does tr n t (AReturn o r) -> tells o r ->
      exists v, saw eqb o r v /\ (v = v0 \/ exists i u o', does tr i u (ACall o') /\ brings o' v /\ hb tr i n)) ->
    (forall n t o r, does (tr ++ [e]) n t (AReturn o r) -> tells o r ->
      exists v, saw eqb o r v /\ (v = v0 \/ exists i u o', does (tr ++ [e]) i u (ACall o') /\ brings o' v /\ hb (tr ++ [e]) i n)).
  Proof.
    intros He H n t o r D W. apply does_app_inv in D. destruct D as [D|[_ D]]; [|now apply He in D].
    destruct (H _ _ _ _ D W) as (v & S & [E|(i & u & o' & H1 & H2 & H3)]); exists v; split; auto.
    right. exists i, u, o'. auto using does_app, hb_app.
  Qed.

  Lemma inv_start : Inv [] (start m0).
  Proof.
    split; cbn.
    - discriminate.
    - unfold pointed, n0. destruct Hm0 as [[E1 E2]|E1]; rewrite E1; cbn; [exact E2|].
      exists v0. split; [reflexivity|]. left. cbn. auto.
    - unfold n0. lia.
    - intros [|i] t b l D; discriminate.
    - intros [|i] j t u b l D; discriminate.
    - intros [|i] t o r D; discriminate.
  Qed.

  Lemma put_run {A} (f : nat -> A) t u a : put f t a u = if Nat.eqb t u then a else f u.
  Proof. reflexivity. Qed.

  Lemma inv_call tr c t o : Inv tr c -> thread c t = Idle ->
    Inv (tr ++ [(t, ACall o)]) {| shared := shared c; thread := put (thread c) t (Run o (code zero eqb o)) |}.
  Proof.
    intros [I1 I2 I3 I4 I5 I6] HT. split; cbn [shared thread].
    - intros u o' k H. rewrite put_run in H. destruct (Nat.eqb_spec t u) as [->|N].
      + injection H as <- <-. split; [exists (List.length tr); apply does_last|apply P_start].
      + destruct (I1 u o' k H) as [[i D] P]. split; [eauto using does_app|]. eapply Pt_app; [|exact P]. auto.
    - destruct (ptr (shared c)) as [l|]; [|exact I2]. destruct I2 as (v & H1 & H2). exists v. split; [exact H1|].
      apply pointed_keep; [exact H2|discriminate].
    - exact I3.
    - apply (plain_keep tr _ (shared c)); [discriminate|lia|exact I4].
    - apply order_keep; [discriminate|exact I5].
    - apply return_keep; [discriminate|exact I6].
  Qed.

  Lemma inv_return tr c t o k r : Inv tr c -> thread c t = Run o k -> over k = Some r ->
    Inv (tr ++ [(t, AReturn o r)]) {| shared := shared c; thread := put (thread c) t Idle |}.
  Proof.
    intros [I1 I2 I3 I4 I5 I6] HT HO. split; cbn [shared thread].
    - intros u o' k' H. rewrite put_run in H. destruct (Nat.eqb_spec t u) as [->|N]; [discriminate|].
      destruct (I1 u o' k' H) as [[i D] P]. split; [eauto using does_app|]. eapply Pt_app; [|exact P]. auto.
    - destruct (ptr (shared c)) as [l|]; [|exact I2]. destruct I2 as (v & H1 & H2). exists v. split; [exact H1|].
      apply pointed_keep; [exact H2|discriminate].
    - exact I3.
    - apply (plain_keep tr _ (shared c)); [discriminate|lia|exact I4].
    - apply order_keep; [discriminate|exact I5].
    - intros n u o' r' D W. apply does_app_inv in D. destruct D as [D|[-> D]].
      + destruct (I6 _ _ _ _ D W) as (v & S & [E|(i & w & o2 & H1 & H2 & H3)]); exists v; split; auto.
        right. exists i, w, o2. auto using does_app, hb_app.
      + injection D as <- <- <-. destruct (I1 _ _ _ HT) as [_ P]. destruct k as [r2| | | | | |]; try discriminate. cbn in HO. injection HO as ->.
        assert (G : exists v, saw eqb o r v /\ got tr t v).
        { inversion P; subst; [destruct o; discriminate|]. auto. }
        destruct G as (v & S & [E|(i & w & o2 & H1 & H2 & H3)]); exists v; split; auto.
        right. exists i, w, o2. split; [now apply does_app|]. split; [exact H2|]. now apply sees_hb.
  Qed.

  (** A goroutine's instruction, from the point of view of the goroutine. *)
  Lemma instr_ok tr c t o k a k' m' : Inv tr c -> thread c t = Run o k -> access k (shared c) = Some a -> instr t k (shared c) k' m' ->
    Pt (tr ++ [(t, a)]) m' t o k' /\
    (forall l v, cell (shared c) l = Some v -> cell m' l = Some v) /\ List.length (heap (shared c)) <= List.length (heap m') /\
    match ptr m' with None => v0 = zero | Some l => exists v, cell m' l = Some v /\ pointed (tr ++ [(t, a)]) l v end /\
    (forall l, a = APlain true l -> l = List.length (heap (shared c)) /\ List.length (heap m') = S l) /\
    (forall l, a = APlain false l -> exists v, cell (shared c) l = Some v /\ has tr t l v).
  Proof.
    intros [I1 I2 I3 I4 I5 I6] HT HA HI. destruct (I1 _ _ _ HT) as [[i Di] P]. clear I1 I4 I5 I6.
    assert (KP : (forall b, a <> AAtomic b true) -> ptr m' = ptr (shared c) -> (forall l v, cell (shared c) l = Some v -> cell m' l = Some v) ->
      match ptr m' with None => v0 = zero | Some l => exists v, cell m' l = Some v /\ pointed (tr ++ [(t, a)]) l v end).
    { intros Ha -> HM. destruct (ptr (shared c)) as [l|]; [|exact I2]. destruct I2 as (v & H1 & H2). exists v. split; [auto|].
      apply pointed_keep; [exact H2|]. intros u b E. injection E as -> E. exact (Ha b E). }
    assert (GN : forall x, cell {| heap := heap (shared c) ++ [x]; ptr := ptr (shared c) |} (List.length (heap (shared c))) = Some x).
    { intros x. cbn. rewrite nth_error_app2, Nat.sub_diag by lia. reflexivity. }
    assert (GM : forall x l v, cell (shared c) l = Some v -> cell {| heap := heap (shared c) ++ [x]; ptr := ptr (shared c) |} l = Some v).
    { intros x l v H. cbn. rewrite nth_error_app1; [exact H|]. apply nth_error_Some. congruence. }
    assert (ON : forall x, brings o x -> own (tr ++ [(t, APlain true (List.length (heap (shared c))))]) t (List.length (heap (shared c))) x).
    { intros x B. exists i, (List.length tr), o. split; [now apply does_app|]. split; [exact B|]. split; [eapply does_lt, Di|apply does_last]. }
    inversion HI; subst; cbn [access] in HA; injection HA as <-.
    - (* New *)
      assert (B : brings o x /\ Pt (tr ++ [(t, APlain true (List.length (heap (shared c))))]) {| heap := heap (shared c) ++ [x]; ptr := ptr (shared c) |} t o (k0 (List.length (heap (shared c))))).
      { inversion P; subst; clear P.
        - match goal with H : code _ _ _ = _ |- _ => rename H into HC end.
          destruct o as [|y|y|old new]; try discriminate; cbn in HC; injection HC as -> <-; split; try reflexivity.
          + apply P_store; [apply GN|apply ON; reflexivity].
          + apply P_swap; [apply GN|apply ON; reflexivity].
        - split; [reflexivity|]. eapply P_cas; [eassumption|apply got_app; eassumption|apply GN|apply ON; reflexivity]. }
      destruct B as [B PK]. split; [exact PK|]. split; [apply GM|]. split; [cbn; rewrite app_length; lia|].
      split; [apply KP; [discriminate|reflexivity|apply GM]|]. split; [|discriminate].
      intros l E. injection E as <-. split; [reflexivity|]. cbn. rewrite app_length. cbn. lia.
    - (* Deref *)
      assert (B : has tr t l v /\ Pt (tr ++ [(t, APlain false l)]) (shared c) t o (k0 v)).
      { inversion P; subst; clear P.
        - destruct o; discriminate.
        - replace v1 with v in * by congruence. split; [assumption|]. apply P_ret. intros _. exists v.
          split; [|eauto using has_got, has_app]. match goal with H : _ \/ _ |- _ => destruct H as [->|[x ->]]; reflexivity end.
        - replace v1 with v in * by congruence. split; [assumption|]. destruct (eqb v old) eqn:E; cbn [negb].
          + unfold replace. destruct (eqb new old).
            * apply P_ret. intros _. exists v. split; [exact E|]. eauto using has_got, has_app.
            * eapply P_cnew; eauto using has_got, has_app.
          + apply P_ret. intros []. }
      destruct B as [B PK]. split; [exact PK|]. split; [auto|]. split; [lia|]. split; [apply KP; auto; discriminate|].
      split; [discriminate|]. intros l' E. injection E as <-. eauto.
    - (* LoadPointer *)
      split.
      { inversion P; subst; clear P. match goal with H : code _ _ _ = _ |- _ => rename H into HC end.
        destruct o as [|x|x|old new]; try discriminate; cbn in HC; injection HC as <-.
        - destruct (ptr (shared c)) as [l|].
          + destruct I2 as (v & H1 & H2). eapply P_deref; eauto. now apply pointed_has.
          + apply P_ret. intros _. exists zero. split; [reflexivity|now left].
        - destruct (ptr (shared c)) as [l|].
          + destruct I2 as (v & H1 & H2). eapply P_casd; eauto. now apply pointed_has.
          + destruct (eqb zero old) eqn:E; cbn [negb].
            * unfold replace. destruct (eqb new old).
              -- apply P_ret. intros _. exists zero. split; [exact E|now left].
              -- eapply P_cnew; [exact E|now left].
            * apply P_ret. intros []. }
      split; [auto|]. split; [lia|]. split; [apply KP; auto; discriminate|]. split; discriminate.
    - (* StorePointer *)
      assert (B : exists x, o = Store x /\ cell (shared c) l = Some x /\ own tr t l x /\ k' = Ret RUnit).
      { inversion P; subst; clear P; [destruct o; discriminate|]. eauto 6. }
      destruct B as (x & -> & H1 & H2 & ->).
      split; [apply P_ret; intros []|]. split; [auto|]. split; [cbn; lia|]. split; [cbn; exists x; split; [exact H1|now apply own_pointed]|]. split; discriminate.
    - (* SwapPointer *)
      assert (B : exists x, o = Swap x /\ cell (shared c) l = Some x /\ own tr t l x /\
        k0 = (fun p => match p with None => Ret (RVal zero) | Some l' => Deref l' (fun v => Ret (RVal v)) end)).
      { inversion P; subst; clear P; [destruct o; discriminate|]. eauto 6. }
      destruct B as (x & -> & H1 & H2 & ->).
      split.
      { destruct (ptr (shared c)) as [l'|].
        - destruct I2 as (v & H3 & H4). eapply P_deref; eauto. now apply pointed_has.
        - apply P_ret. intros _. exists zero. split; [reflexivity|now left]. }
      split; [auto|]. split; [cbn; lia|]. split; [cbn; exists x; split; [exact H1|now apply own_pointed]|]. split; discriminate.
    - (* CompareAndSwapPointer, done *)
      assert (B : exists old new' v, o = CompareAndSwap old new' /\ eqb v old = true /\ got tr t v /\ cell (shared c) new = Some new' /\ own tr t new new' /\
        k0 = (fun b => Ret (RBool b))).
      { inversion P; subst; clear P; [destruct o; discriminate|]. eauto 10. }
      destruct B as (old & new' & v & -> & H1 & H2 & H3 & H4 & ->).
      assert (E : samePtr (ptr (shared c)) (ptr (shared c)) = true) by (destruct (ptr (shared c)); cbn; [apply Nat.eqb_refl|reflexivity]).
      rewrite E. split; [apply P_ret; intros _; exists v; split; [exact H1|now apply got_app]|]. split; [auto|]. split; [cbn; lia|].
      split; [cbn; exists new'; split; [exact H3|now apply own_pointed]|]. split; discriminate.
    - (* CompareAndSwapPointer, not done *)
      assert (B : exists old new' v, o = CompareAndSwap old new' /\ k0 = (fun b => Ret (RBool b)) /\ eqb v old = true).
      { inversion P; subst; clear P; [destruct o; discriminate|]. eauto 10. }
      destruct B as (old' & new' & v & -> & -> & _).
      assert (E : samePtr (ptr (shared c)) old = false).
      { destruct (ptr (shared c)) as [p|], old as [q|]; cbn; try reflexivity; [|congruence]. destruct (Nat.eqb_spec p q); [congruence|reflexivity]. }
      rewrite E in *. split; [apply P_ret; intros []|]. split; [auto|]. split; [lia|]. split; [apply KP; auto; discriminate|]. split; discriminate.
  Qed.

  Lemma inv_instr tr c t o k a k' m' : Inv tr c -> thread c t = Run o k -> access k (shared c) = Some a -> instr t k (shared c) k' m' ->
    Inv (tr ++ [(t, a)]) {| shared := m'; thread := put (thread c) t (Run o k') |}.
  Proof.
    intros I HT HA HI. destruct (instr_ok tr c t o k a k' m' I HT HA HI) as (P & HM & HL & HP & HW & HR).
    destruct I as [I1 I2 I3 I4 I5 I6].
    assert (NR : forall u o' r, (t, a) <> (u, AReturn o' r)) by (intros u o' r E; injection E as _ ->; destruct k; discriminate).
    split; cbn [shared thread].
    - intros u o' k2 H. rewrite put_run in H. destruct (Nat.eqb_spec t u) as [->|N].
      + injection H as <- <-. split; [|exact P]. destruct (I1 _ _ _ HT) as [[i D] _]. eauto using does_app.
      + destruct (I1 u o' k2 H) as [[i D] P2]. split; [eauto using does_app|]. eapply Pt_app; [|exact P2]. auto.
    - exact HP.
    - lia.
    - intros i u b l D. apply does_app_inv in D. destruct D as [D|[_ D]]; [destruct (I4 _ _ _ _ D); split; [lia|assumption]|].
      injection D as <- ->. destruct b.
      + destruct (HW l eq_refl) as [-> E]. lia.
      + destruct (HR l eq_refl) as (v & H & _). split; [|discriminate]. apply HM in H. apply nth_error_Some. congruence.
    - intros i j u w b l D1 D2 N. apply does_app_inv in D1. apply does_app_inv in D2.
      destruct D1 as [D1|[-> D1]], D2 as [D2|[-> D2]].
      + destruct (I5 _ _ _ _ _ _ D1 D2 N). auto using hb_app.
      + injection D2 as <- ->. destruct b.
        * destruct (HW l eq_refl) as [-> _]. destruct (I4 _ _ _ _ D1). lia.
        * split; [reflexivity|]. destruct (HR l eq_refl) as (v & _ & [[H _]|(i2 & iw & t2 & (o2 & _ & _ & _ & H) & S)]).
          -- destruct (I4 _ _ _ _ D1) as [_ H2]. specialize (H2 eq_refl). lia.
          -- destruct (Nat.eq_dec i iw) as [->|N2]; [now apply sees_hb|]. destruct (I5 _ _ _ _ _ _ D1 H N2). discriminate.
      + injection D1 as <- ->. destruct (HW l eq_refl) as [-> _]. destruct (I4 _ _ _ _ D2). lia.
      + lia.
    - now apply return_keep.
  Qed.

  Lemma inv_detailed tr c : detailed zero eqb m0 tr c -> Inv tr c.
  Proof.
    induction 1; [apply inv_start|now apply inv_call|eapply inv_instr; eauto|eapply inv_return; eauto].
  Qed.
End Proofs.
