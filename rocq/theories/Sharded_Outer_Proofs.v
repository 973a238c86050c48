(** Proofs about goroutines that lock shards of an xmap.Sharded themselves. *)
From Coq Require Import Permutation.
From Verif Require Import Base GoMap Sharded_Model Sharded_Locks Sharded_Outer_Model Sharded_Outer_Spec.
Local Open Scope list_scope.
Local Open Scope Z_scope.

Definition zcount (t : nat) (l : list nat) : Z := Z.of_nat (count_occ Nat.eq_dec l t).

Lemma zcount_nonneg t l : 0 <= zcount t l.
Proof. unfold zcount. lia. Qed.
Lemma zcount_cons t x l : zcount t (x :: l) = (if Nat.eqb x t then 1 else 0) + zcount t l.
Proof. unfold zcount. cbn. destruct (Nat.eq_dec x t), (Nat.eqb_spec x t); try congruence; lia. Qed.
Lemma zcount_in t l : In t l <-> 0 < zcount t l.
Proof. unfold zcount. rewrite (count_occ_In Nat.eq_dec). lia. Qed.
Lemma zcount_remove t x l : In x l -> zcount t (removeOne x l) = zcount t l - (if Nat.eqb x t then 1 else 0).
Proof.
  induction l as [|y l IH]; cbn [removeOne]; [intros []|]. intros Hin.
  destruct (Nat.eqb_spec y x) as [->|Hn].
  - rewrite zcount_cons. lia.
  - rewrite !zcount_cons, IH; [lia|]. destruct Hin; congruence.
Qed.

Section OuterProofs.
  Context {K V : Type} (eqb : K -> K -> bool) (zero : V) (nsh : nat) (hash : K -> Z).
  Notation prog := (prog K V).
  Notation shared := (shared K V).
  Notation op := (op K V).
  Notation res := (res K V).
  Notation client := (client K V).
  Notation trace := (list (uevent K V)).
  Notation progOf := (progOf eqb zero nsh hash).
  Notation ustep := (ustep eqb zero nsh hash).
  Notation uruns := (uruns eqb zero nsh hash).
  Notation shardOf := (GetShard nsh hash).

  Definition ind (a b c d : nat) : Z := if Nat.eqb a b && Nat.eqb c d then 1 else 0.
  Lemma ind_range a b c d : 0 <= ind a b c d <= 1.
  Proof. unfold ind. destruct (Nat.eqb a b && Nat.eqb c d); lia. Qed.
  Lemma ind_same a b : ind a a b b = 1.
  Proof. unfold ind. now rewrite !Nat.eqb_refl. Qed.

  (** How often [t] has locked [s] more than unlocked it. *)
  Fixpoint cr (t s : nat) (tr : trace) : Z :=
    match tr with
    | [] => 0
    | URLocked t' s' :: tr => ind t t' s s' + cr t s tr
    | URUnlocked t' s' :: tr => cr t s tr - ind t t' s s'
    | _ :: tr => cr t s tr
    end.
  Fixpoint cw (t s : nat) (tr : trace) : Z :=
    match tr with
    | [] => 0
    | ULocked t' s' :: tr => ind t t' s s' + cw t s tr
    | UUnlocked t' s' :: tr => cw t s tr - ind t t' s s'
    | _ :: tr => cw t s tr
    end.
  Lemma cr_app t s a b : cr t s (a ++ b) = cr t s a + cr t s b.
  Proof. induction a as [|[]]; cbn; lia. Qed.
  Lemma cw_app t s a b : cw t s (a ++ b) = cw t s a + cw t s b.
  Proof. induction a as [|[]]; cbn; lia. Qed.

  Definition rd (h : held) (s : nat) : Z := match h with HR s' => if Nat.eqb s' s then 1 else 0 | _ => 0 end.

  (** What the mutexes know about goroutine [t], which holds [h] inside a method
      and [R s], [W s] times shard [s] by itself. *)
  Definition good (sh : shared) (R W : nat -> Z) (t : nat) (h : held) : Prop := forall s,
    zcount t (readers (mu sh s)) = R s + rd h s /\ 0 <= R s /\ 0 <= W s <= 1 /\
    (writer (mu sh s) = Some (t, true) -> h = HW s \/ 0 < W s) /\
    (h = HW s -> writer (mu sh s) = Some (t, true) /\ W s = 0) /\
    (0 < W s -> writer (mu sh s) = Some (t, true)) /\
    (h = HWait s <-> writer (mu sh s) = Some (t, false)).
  Definition mu2 (sh : shared) : Prop := forall s t, writer (mu sh s) = Some (t, true) -> readers (mu sh s) = [].

  (** The lock [h] a method must hold at its next instruction. *)
  Definition ready (h : held) (p : prog) : Prop :=
    match p with
    | RLock s _ | Lock s _ => h = HNone
    | RUnlock s _ => h = HR s
    | LockWait s _ => h = HWait s
    | Unlock s _ => h = HW s
    | Read s _ | Range s _ => h = HR s \/ h = HW s
    | Write s _ _ => h = HW s
    | _ => True
    end.

  Lemma bal_ready h p : bal true h p -> ready h p.
  Proof. destruct p; cbn; try tauto. intros [[H|[H _]] _]; [assumption|discriminate]. Qed.

  Lemma tstep_good t p sh p' sh' R W h : tstep t p sh p' sh' -> mu2 sh -> good sh R W t h -> ready h p ->
    mu2 sh' /\ good sh' R W t (nextHeld p h) /\
    forall t' R' W' h', t' <> t -> good sh R' W' t' h' -> good sh' R' W' t' h'.
  Proof.
    intros T M G B. destruct T as [s k sh Wr|s k sh Wr|s k sh Wr|s k sh Wr Rd|s k sh Wr|s k sh|s k l sh P|s f k sh];
      cbn in B; try subst h; cbn [nextHeld].
    - (* RLock *) set (w := {| writer := None; readers := t :: readers (mu sh s) |}). split; [|split].
      + intros s' t'. cbn. destruct (fupd_case (mu sh) s s' w) as [[<- ->]|[_ ->]]; [discriminate|apply M].
      + intros s'. specialize (G s'). cbn. destruct (fupd_case (mu sh) s s' w) as [[<- ->]|[Hn ->]]; cbn.
        * rewrite zcount_cons, !Nat.eqb_refl. cbn in G. rewrite Wr in G. intuition (try congruence; try lia).
        * destruct (Nat.eqb_spec s s'); [congruence|]. cbn in G. intuition (try congruence; try lia).
      + intros t' R' W' h' Ht G' s'. specialize (G' s'). cbn. destruct (fupd_case (mu sh) s s' w) as [[<- ->]|[Hn ->]]; cbn; [|assumption].
        rewrite zcount_cons. destruct (Nat.eqb_spec t t'); [congruence|]. rewrite Wr in G'. intuition (try congruence; try lia).
    - (* RUnlock *) set (w := {| writer := writer (mu sh s); readers := removeOne t (readers (mu sh s)) |}). split; [|split].
      + intros s' t'. cbn. destruct (fupd_case (mu sh) s s' w) as [[<- ->]|[_ ->]]; [|apply M]. cbn. intros E. now rewrite (M _ _ E).
      + intros s'. specialize (G s'). cbn. destruct (fupd_case (mu sh) s s' w) as [[<- ->]|[Hn ->]]; cbn.
        * rewrite zcount_remove by assumption. rewrite !Nat.eqb_refl. cbn in G. rewrite Nat.eqb_refl in G. intuition (try congruence; try lia).
        * cbn in G. destruct (Nat.eqb_spec s s'); [congruence|]. intuition (try congruence; try lia).
      + intros t' R' W' h' Ht G' s'. specialize (G' s'). cbn. destruct (fupd_case (mu sh) s s' w) as [[<- ->]|[Hn ->]]; cbn; [|assumption].
        rewrite zcount_remove by assumption. destruct (Nat.eqb_spec t t'); [congruence|]. intuition (try congruence; try lia).
    - (* Lock *) set (w := {| writer := Some (t, false); readers := readers (mu sh s) |}). split; [|split].
      + intros s' t'. cbn. destruct (fupd_case (mu sh) s s' w) as [[<- ->]|[_ ->]]; [discriminate|apply M].
      + intros s'. specialize (G s'). cbn. destruct (fupd_case (mu sh) s s' w) as [[<- ->]|[Hn ->]]; cbn; cbn in G.
        * rewrite Wr in G. intuition (try congruence; try lia).
        * intuition (try congruence; try lia).
      + intros t' R' W' h' Ht G' s'. specialize (G' s'). cbn. destruct (fupd_case (mu sh) s s' w) as [[<- ->]|[Hn ->]]; cbn; [|assumption].
        rewrite Wr in G'. intuition (try congruence; try lia).
    - (* LockWait *) set (w := {| writer := Some (t, true); readers := [] |}). split; [|split].
      + intros s' t'. cbn. destruct (fupd_case (mu sh) s s' w) as [[<- ->]|[_ ->]]; [reflexivity|apply M].
      + intros s'. specialize (G s'). cbn. destruct (fupd_case (mu sh) s s' w) as [[<- ->]|[Hn ->]]; cbn; cbn in G.
        * rewrite Wr, Rd in G. cbn in G. intuition (try congruence; try lia).
          destruct (Z.eq_dec (W s) 0); [assumption|]. assert (0 < W s) by lia. intuition congruence.
        * intuition (try congruence; try lia).
      + intros t' R' W' h' Ht G' s'. specialize (G' s'). cbn. destruct (fupd_case (mu sh) s s' w) as [[<- ->]|[Hn ->]]; cbn; [|assumption].
        rewrite Wr, Rd in G'. intuition (try congruence; try lia).
    - (* Unlock *) set (w := {| writer := None; readers := readers (mu sh s) |}). split; [|split].
      + intros s' t'. cbn. destruct (fupd_case (mu sh) s s' w) as [[<- ->]|[_ ->]]; [discriminate|apply M].
      + intros s'. specialize (G s'). cbn. destruct (fupd_case (mu sh) s s' w) as [[<- ->]|[Hn ->]]; cbn; cbn in G.
        * rewrite Wr in G. intuition (try congruence; try lia).
        * intuition (try congruence; try lia).
      + intros t' R' W' h' Ht G' s'. specialize (G' s'). cbn. destruct (fupd_case (mu sh) s s' w) as [[<- ->]|[Hn ->]]; cbn; [|assumption].
        rewrite Wr in G'. intuition (try congruence; try lia).
    - auto.
    - auto.
    - auto.
  Qed.

  Definition inc (f : nat -> Z) (s : nat) (d : Z) : nat -> Z := fun x => if Nat.eqb s x then f x + d else f x.

  Lemma good_ext sh R W R' W' t h : (forall s, R s = R' s) -> (forall s, W s = W' s) -> good sh R W t h -> good sh R' W' t h.
  Proof. intros HR HW G s. rewrite <- HR, <- HW. apply G. Qed.

  (** A lock of a method becomes one of the goroutine, and back. *)
  Lemma good_keepR sh R W t s : good sh R W t (HR s) -> good sh (inc R s 1) W t HNone.
  Proof.
    intros G x. specialize (G x). unfold inc. cbn in *. destruct (Nat.eqb_spec s x) as [->|]; intuition (try congruence; try lia).
  Qed.
  Lemma good_giveR sh R W t s : In t (readers (mu sh s)) -> good sh R W t HNone -> good sh (inc R s (-1)) W t (HR s).
  Proof.
    intros Hin G x. pose proof (proj1 (zcount_in _ _) Hin). specialize (G x). unfold inc. cbn in *.
    destruct (Nat.eqb_spec s x) as [->|]; intuition (try congruence; try lia).
  Qed.
  Lemma good_keepW sh R W t s : good sh R W t (HW s) -> good sh R (inc W s 1) t HNone.
  Proof.
    intros G x. specialize (G x). unfold inc. cbn in *. destruct (Nat.eqb_spec s x) as [->|]; intuition (try congruence; try lia).
  Qed.
  Lemma good_giveW sh R W t s : writer (mu sh s) = Some (t, true) -> good sh R W t HNone -> good sh R (inc W s (-1)) t (HW s).
  Proof.
    intros Hw G x. specialize (G x). unfold inc. cbn in *.
    destruct (Nat.eqb_spec s x) as [->|]; intuition (try congruence; try lia).
  Qed.

  Lemma bal_tstep t (p : prog) sh p' sh' h : tstep t p sh p' sh' -> bal true h p -> bal true (nextHeld p h) p'.
  Proof. intros T. destruct T; cbn; try tauto; intros [_ B]; auto. Qed.

  Definition local (h : held) (u : ustate K V) : Prop :=
    match u with
    | At c => h = HNone /\ noClear c
    | In_ o p k => bal true h p /\ forall r, noClear (k r)
    | Waiting s c => h = HWait s /\ noClear c
    end.

  Definition uinv (tr : trace) (c : uconfig K V) : Prop :=
    mu2 (umem c) /\
    forall t, exists h, local h (uthr c t) /\ good (umem c) (fun s => cr t s tr) (fun s => cw t s tr) t h.

  Lemma noClear_do (o : op) k : noClear (CDo o k) -> ~ isClear o /\ forall r, noClear (k r).
  Proof. destruct o; cbn; tauto. Qed.

  Lemma cr_other t s tr ev : (forall e, In e ev -> forall s', e <> URLocked t s' /\ e <> URUnlocked t s') ->
    cr t s (tr ++ ev) = cr t s tr.
  Proof.
    intros H. rewrite cr_app. replace (cr t s ev) with 0; [lia|].
    induction ev as [|e ev IH]; [reflexivity|]. assert (IH' : 0 = cr t s ev) by (apply IH; intros; apply H; now right).
    pose proof (H e (or_introl eq_refl)) as He. destruct e as [| |t' s'|t' s'| |]; cbn [cr]; try exact IH'; rewrite <- IH'; unfold ind;
      destruct (Nat.eqb_spec t t') as [->|]; cbn [andb]; try reflexivity; destruct (He s'); congruence.
  Qed.
  Lemma cw_other t s tr ev : (forall e, In e ev -> forall s', e <> ULocked t s' /\ e <> UUnlocked t s') ->
    cw t s (tr ++ ev) = cw t s tr.
  Proof.
    intros H. rewrite cw_app. replace (cw t s ev) with 0; [lia|].
    induction ev as [|e ev IH]; [reflexivity|]. assert (IH' : 0 = cw t s ev) by (apply IH; intros; apply H; now right).
    pose proof (H e (or_introl eq_refl)) as He. destruct e as [| | | |t' s'|t' s']; cbn [cw]; try exact IH'; rewrite <- IH'; unfold ind;
      destruct (Nat.eqb_spec t t') as [->|]; cbn [andb]; try reflexivity; destruct (He s'); congruence.
  Qed.

  Ltac noev := let e := fresh in intros e He ?; cbn in He;
    repeat match goal with H : _ \/ _ |- _ => destruct H as [<-|H] | H : False |- _ => destruct H end;
    split; congruence.

  Ltac nilev := first [eapply good_ext; [| |eassumption]; intros ?; cbn; now rewrite app_nil_r
                      |intros; rewrite app_nil_r; auto].

  (** One goroutine moves, the counters of the others are as before. *)
  Lemma uinv_move tr ev sh sh' th t h u : uinv tr {| umem := sh; uthr := th |} ->
    mu2 sh' ->
    (forall t' R' W' h', t' <> t -> good sh R' W' t' h' -> good sh' R' W' t' h') ->
    (forall t' s, t' <> t -> cr t' s (tr ++ ev) = cr t' s tr /\ cw t' s (tr ++ ev) = cw t' s tr) ->
    local h u -> good sh' (fun s => cr t s (tr ++ ev)) (fun s => cw t s (tr ++ ev)) t h ->
    uinv (tr ++ ev) {| umem := sh'; uthr := fupd th t u |}.
  Proof.
    intros [_ I] M F C L G. split; [assumption|]. intros t'. cbn.
    destruct (fupd_case th t t' u) as [[<- ->]|[Hn ->]]; [eauto|].
    destruct (I t') as (h' & L' & G'). exists h'. split; [assumption|]. apply F in G'; [|congruence].
    eapply good_ext; [| |exact G']; intros s; cbn; symmetry; apply C; congruence.
  Qed.

  Lemma uinv_step tr c ev c' : ustep c ev c' -> uinv tr c -> uinv (tr ++ ev) c'.
  Proof.
    intros S I. pose proof I as [M I'].
    destruct S as [t o k sh th E|t o r k sh th E|t o p k sh th E|t o p p' k sh sh' th E T|t key k sh sh' th E T
                  |t key k sh sh' th E T|t key k sh sh' th E T|t s k sh sh' th E T|t key k sh sh' th E T];
      destruct (I' t) as (h & L & G); cbn in L, G, M; rewrite E in L; cbn in L.
    - destruct L as [-> L]. apply noClear_do in L. eapply uinv_move; eauto.
      + intros t' s Ht. rewrite cr_other, cw_other by noev. auto.
      + split; [apply bal_op; tauto|tauto].
      + eapply good_ext; [| |exact G]; intros s; cbn; [rewrite cr_other by noev|rewrite cw_other by noev]; reflexivity.
    - cbn in L. destruct L as [-> L]. eapply uinv_move; eauto.
      + intros t' s Ht. rewrite cr_other, cw_other by noev. auto.
      + now split.
      + eapply good_ext; [| |exact G]; intros s; cbn; [rewrite cr_other by noev|rewrite cw_other by noev]; reflexivity.
    - cbn in L. eapply uinv_move; eauto; nilev.
    - destruct L as [B L]. destruct (tstep_good _ _ _ _ _ _ _ _ T M G (bal_ready _ _ B)) as (M' & G' & F).
      eapply uinv_move; eauto; [nilev| |nilev]. split; [eapply bal_tstep; eauto|assumption].
    - destruct L as [-> L]. destruct (tstep_good _ _ _ _ _ _ _ _ T M G eq_refl) as (M' & G' & F). cbn in G'.
      eapply uinv_move; eauto; [|split; eauto|].
      + intros t' s Ht. rewrite cr_other, cw_other by noev. auto.
      + eapply good_ext; [| |apply good_keepR; exact G']; intros s; unfold inc.
        * rewrite cr_app. cbn. unfold ind. rewrite Nat.eqb_refl, (Nat.eqb_sym s). cbn. destruct (Nat.eqb (shardOf key) s); lia.
        * now rewrite cw_other by noev.
    - destruct L as [-> L]. assert (Hin : In t (readers (mu sh (shardOf key)))) by (inversion T; assumption).
      destruct (tstep_good _ _ _ _ _ _ _ _ T M (good_giveR _ _ _ _ _ Hin G) eq_refl) as (M' & G' & F). cbn in G'.
      eapply uinv_move; eauto; [|split; eauto|].
      + intros t' s Ht. rewrite cr_other, cw_other by noev. auto.
      + eapply good_ext; [| |exact G']; intros s; unfold inc.
        * rewrite cr_app. cbn. unfold ind. rewrite Nat.eqb_refl, (Nat.eqb_sym s). cbn. destruct (Nat.eqb (shardOf key) s); lia.
        * now rewrite cw_other by noev.
    - destruct L as [-> L]. destruct (tstep_good _ _ _ _ _ _ _ _ T M G eq_refl) as (M' & G' & F). cbn in G'.
      eapply uinv_move; eauto; [nilev| |nilev]. split; auto.
    - destruct L as [-> L]. destruct (tstep_good _ _ _ _ _ _ _ _ T M G eq_refl) as (M' & G' & F). cbn in G'.
      eapply uinv_move; eauto; [|split; eauto|].
      + intros t' s' Ht. rewrite cr_other, cw_other by noev. auto.
      + eapply good_ext; [| |apply good_keepW; exact G']; intros s'; unfold inc.
        * now rewrite cr_other by noev.
        * rewrite cw_app. cbn. unfold ind. rewrite Nat.eqb_refl, (Nat.eqb_sym s'). cbn. destruct (Nat.eqb s s'); lia.
    - destruct L as [-> L]. assert (Hw : writer (mu sh (shardOf key)) = Some (t, true)) by (inversion T; assumption).
      destruct (tstep_good _ _ _ _ _ _ _ _ T M (good_giveW _ _ _ _ _ Hw G) eq_refl) as (M' & G' & F). cbn in G'.
      eapply uinv_move; eauto; [|split; eauto|].
      + intros t' s Ht. rewrite cr_other, cw_other by noev. auto.
      + eapply good_ext; [| |exact G']; intros s; unfold inc.
        * now rewrite cr_other by noev.
        * rewrite cw_app. cbn. unfold ind. rewrite Nat.eqb_refl, (Nat.eqb_sym s). cbn. destruct (Nat.eqb (shardOf key) s); lia.
  Qed.

  Lemma uinv_start clients : (forall t, noClear (clients t)) -> uinv [] (ustart clients).
  Proof.
    intros H. split; [intros s t; discriminate|]. intros t. exists HNone. cbn. split; [auto|]. intros s. cbn.
    repeat split; try discriminate; try lia; auto.
  Qed.

  Lemma uinv_runs c tr c' tr0 : uruns c tr c' -> uinv tr0 c -> uinv (tr0 ++ tr) c'.
  Proof.
    induction 1 as [|c tr c' ev c'' H IH S]; intros I; [now rewrite app_nil_r|]. rewrite app_assoc. eapply uinv_step; eauto.
  Qed.

  Lemma ustep_ev c ev c' : ustep c ev c' -> ev = [] \/ exists e, ev = [e].
  Proof. destruct 1; eauto. Qed.

  Lemma snoc_prefix {A} (l : list A) e a b : l ++ [e] = a ++ b -> (exists b', l = a ++ b') \/ (a = l ++ [e] /\ b = []).
  Proof.
    destruct b as [|x b _] using rev_ind; intros E.
    - right. rewrite app_nil_r in E. auto.
    - left. rewrite app_assoc in E. apply app_inj_tail in E as [-> ->]. eauto.
  Qed.
  Lemma snoc_mid {A} (l : list A) e a x b : l ++ [e] = a ++ x :: b ->
    (exists b', b = b' ++ [e] /\ l = a ++ x :: b') \/ (l = a /\ x = e /\ b = []).
  Proof.
    destruct b as [|y b _] using rev_ind; intros E.
    - right. apply app_inj_tail in E as [-> ->]. auto.
    - left. change (a ++ x :: b ++ [y]) with (a ++ (x :: b) ++ [y]) in E. rewrite app_assoc in E. apply app_inj_tail in E as [-> ->]. eauto.
  Qed.

  Lemma uruns_split c tr c2 : uruns c tr c2 -> forall x e y, tr = x ++ e :: y ->
    exists c' c'', uruns c x c' /\ ustep c' [e] c'' /\ uruns c'' y c2.
  Proof.
    induction 1 as [|c tr c1 ev c2 H IH S]; intros x e y E; [destruct x; discriminate|].
    destruct (ustep_ev _ _ _ S) as [->|(e' & ->)].
    - rewrite app_nil_r in E. destruct (IH _ _ _ E) as (a & b & H1 & H2 & H3). exists a, b. split; [assumption|]. split; [assumption|].
      rewrite <- (app_nil_r y). econstructor; eauto.
    - destruct (snoc_mid _ _ _ _ _ E) as [(y' & -> & ->)|(-> & -> & ->)].
      + destruct (IH _ _ _ eq_refl) as (a & b & H1 & H2 & H3). exists a, b. split; [assumption|]. split; [assumption|]. econstructor; eauto.
      + exists c1, c2. split; [assumption|]. split; [assumption|]. constructor.
  Qed.

  Lemma prefix_nonneg c tr c' : uruns c tr c' -> uinv [] c -> forall a b, tr = a ++ b -> forall t s, 0 <= cr t s a /\ 0 <= cw t s a.
  Proof.
    induction 1 as [|c tr c1 ev c2 H IH S]; intros I a b E t s.
    - destruct a; [|discriminate]. cbn. lia.
    - destruct (ustep_ev _ _ _ S) as [->|(e' & ->)].
      + rewrite app_nil_r in E. eauto.
      + destruct (snoc_prefix _ _ _ _ E) as [(b' & Eb)|(-> & ->)]; [eauto|].
        pose proof (uinv_runs _ _ _ [] (uruns_step _ _ _ _ _ _ _ _ _ H S) I) as [_ I2]. destruct (I2 t) as (h & _ & G). specialize (G s). cbn in G. tauto.
  Qed.

  Lemma cr_up t s l : ~ In (URUnlocked t s) l -> 0 <= cr t s l.
  Proof.
    induction l as [|e l IH]; cbn [cr]; [lia|]. intros H. assert (IH' : 0 <= cr t s l) by (apply IH; intros Hx; apply H; now right).
    destruct e as [| |t' s'|t' s'| |]; try exact IH'; unfold ind; destruct (Nat.eqb_spec t t') as [->|], (Nat.eqb_spec s s') as [->|]; cbn [andb]; try lia.
    exfalso. apply H. now left.
  Qed.
  Lemma cw_up t s l : ~ In (UUnlocked t s) l -> 0 <= cw t s l.
  Proof.
    induction l as [|e l IH]; cbn [cw]; [lia|]. intros H. assert (IH' : 0 <= cw t s l) by (apply IH; intros Hx; apply H; now right).
    destruct e as [| | | |t' s'|t' s']; try exact IH'; unfold ind; destruct (Nat.eqb_spec t t') as [->|], (Nat.eqb_spec s s') as [->|]; cbn [andb]; try lia.
    exfalso. apply H. now left.
  Qed.

  Lemma read_held c tr1 c1 tr2 rest t s : uinv [] c -> uruns c tr1 c1 -> readSection t s tr1 (tr2 ++ rest) -> 0 < cr t s (tr1 ++ tr2).
  Proof.
    intros I U (a & b & E & N). pose proof (proj1 (prefix_nonneg _ _ _ U I a _ E t s)).
    subst tr1. rewrite <- app_assoc, cr_app. cbn [List.app cr]. rewrite ind_same. pose proof (cr_up t s (b ++ tr2)).
    enough (0 <= cr t s (b ++ tr2)) by lia. apply cr_up. intros Hin. apply N. rewrite app_assoc. apply in_or_app. now left.
  Qed.
  Lemma write_held c tr1 c1 tr2 rest t s : uinv [] c -> uruns c tr1 c1 -> writeSection t s tr1 (tr2 ++ rest) -> 0 < cw t s (tr1 ++ tr2).
  Proof.
    intros I U (a & b & E & N). pose proof (proj2 (prefix_nonneg _ _ _ U I a _ E t s)).
    subst tr1. rewrite <- app_assoc, cw_app. cbn [List.app cw]. rewrite ind_same. pose proof (cw_up t s (b ++ tr2)).
    enough (0 <= cw t s (b ++ tr2)) by lia. apply cw_up. intros Hin. apply N. rewrite app_assoc. apply in_or_app. now left.
  Qed.

  (** A held shard does not change. *)
  Lemma freeze tr c ev c' t s : uinv tr c -> ustep c ev c' -> 0 < cr t s tr \/ 0 < cw t s tr ->
    items (umem c') s = items (umem c) s.
  Proof.
    intros [M I] S H. destruct S as [| | |t' o p p' k sh sh' th E T|? ? ? ? ? ? ? T|? ? ? ? ? ? ? T|? ? ? ? ? ? ? T|? ? ? ? ? ? ? T|? ? ? ? ? ? ? T];
      try reflexivity; try (inversion T; reflexivity).
    cbn. destruct (I t') as (h & L & G). cbn in L, G. rewrite E in L. destruct L as [B _].
    destruct T as [| | | | | | |s' f k' sh]; try reflexivity. cbn.
    destruct (fupd_case (items sh) s' s (f (items sh s'))) as [[-> ->]|[_ ->]]; [|reflexivity].
    destruct B as [[->|[D _]] _]; [|discriminate]. exfalso. destruct (I t) as (h' & _ & G'). specialize (G s). specialize (G' s). cbn in *.
    destruct G as (_ & _ & _ & _ & G & _). destruct (G eq_refl) as [Gw G0].
    destruct H as [H|H].
    - rewrite (M _ _ Gw) in G'. cbn in G'. assert (0 <= rd h' s) by (destruct h'; cbn; try lia; destruct (Nat.eqb s0 s); lia). lia.
    - destruct G' as (_ & _ & _ & _ & _ & G' & _). rewrite (G' H) in Gw. injection Gw as ->. lia.
  Qed.

  Section Answers.
    Variables (RF WF : nat -> Prop) (M : nat -> gomap K V).
    Definition F (s : nat) : Prop := RF s \/ WF s.

    (** [r] is a result of [p] when the shards [F] hold [M] throughout. *)
    Fixpoint answers (p : prog) (r : res) : Prop :=
      match p with
      | Ret r' => r = r'
      | RLock s k => ~ WF s /\ answers k r
      | Lock s k | LockWait s k => ~ F s /\ answers k r
      | RUnlock s k | Unlock s k => answers k r
      | Read s k => exists m, (F s -> m = M s) /\ answers (k m) r
      | Range s k => exists l, (F s -> Permutation l (M s)) /\ answers (k l) r
      | Write s f k => answers k r
      | Call k => answers k r
      end.

    Lemma answers_step t p sh p' sh' r : tstep t p sh p' sh' -> mu2 sh ->
      (forall s, F s -> items sh s = M s) -> (forall s, RF s -> readers (mu sh s) <> []) ->
      (forall s, WF s -> exists t, writer (mu sh s) = Some (t, true)) -> answers p' r -> answers p r.
    Proof.
      intros T M2 HI HR HW. destruct T as [s k sh Wr|s k sh Wr|s k sh Wr|s k sh Wr Rd|s k sh Wr|s k sh|s k l sh P|s f k sh]; cbn; intros A; auto.
      - split; [|assumption]. intros Hw. destruct (HW s Hw). congruence.
      - split; [|assumption]. intros [Hr|Hw]; [now apply (HR s)|]. destruct (HW s Hw). congruence.
      - eauto.
      - exists l. split; [|assumption]. intros Hf. now rewrite <- (HI s Hf).
    Qed.
  End Answers.

  (** The calls begun during sections that hold the shards [F]. *)
  Lemma open_calls c0 tr1 c1 tr2 : uinv [] c0 -> uruns c0 tr1 c1 ->
    let RF s := exists t, readSection t s tr1 tr2 in
    let WF s := exists t, writeSection t s tr1 tr2 in
    let M := items (umem c1) in
    forall tr c, uruns c1 tr c -> (exists rest, tr2 = tr ++ rest) ->
    (forall s, F RF WF s -> items (umem c) s = M s) /\
    forall a t o b, tr = a ++ UInv t o :: b -> (forall o' r', ~ In (UInv t o') b /\ ~ In (URet t o' r') b) ->
    exists p k, uthr c t = In_ o p k /\ forall r, answers RF WF M p r -> answers RF WF M (progOf o) r.
  Proof.
    intros I0 U0 RF WF M tr c U. remember c1 as cs eqn:Ecs in U. induction U as [cs|cs tr c ev c' U IH S]; intros (rest & Er); subst cs.
    { split; [reflexivity|]. intros [|]; discriminate. }
    specialize (IH eq_refl). destruct IH as [IHI IH]; [exists (ev ++ rest); now rewrite app_assoc|].
    pose proof (uinv_runs _ _ _ [] U0 I0) as I1. cbn in I1. pose proof (uinv_runs _ _ _ _ U I1) as I2.
    assert (HR : forall s, RF s -> exists t, 0 < cr t s (tr1 ++ tr)).
    { intros s (t & H). exists t. rewrite Er, <- app_assoc in H. eapply read_held; eauto. }
    assert (HW : forall s, WF s -> exists t, 0 < cw t s (tr1 ++ tr)).
    { intros s (t & H). exists t. rewrite Er, <- app_assoc in H. eapply write_held; eauto. }
    split.
    { intros s Hf. rewrite <- (IHI s Hf). destruct Hf as [Hf|Hf]; [destruct (HR s Hf) as (t & Ht)|destruct (HW s Hf) as (t & Ht)];
        eapply freeze; eauto. }
    assert (AS : forall t p p' sh', tstep t p (umem c) p' sh' -> forall r, answers RF WF M p' r -> answers RF WF M p r).
    { intros t p p' sh' T r. eapply answers_step; eauto.
      - apply I2.
      - intros s Hr. destruct (HR s Hr) as (t' & Ht). destruct I2 as [_ I2]. destruct (I2 t') as (h & _ & G). specialize (G s). cbn in G.
        intros En. rewrite En in G. cbn in G. assert (0 <= rd h s) by (destruct h; cbn; try lia; destruct (Nat.eqb s0 s); lia). lia.
      - intros s Hw. destruct (HW s Hw) as (t' & Ht). exists t'. destruct I2 as [_ I2]. destruct (I2 t') as (h & _ & G). specialize (G s). cbn in G. tauto. }
    assert (KEEP : forall t u sh', (forall e, In e ev -> forall t' o r, t' <> t -> e <> UInv t' o /\ e <> URet t' o r) ->
              c' = {| umem := sh'; uthr := fupd (uthr c) t u |} ->
              forall a t' o b, t' <> t -> tr ++ ev = a ++ UInv t' o :: b -> (forall o' r', ~ In (UInv t' o') b /\ ~ In (URet t' o' r') b) ->
              exists p k, uthr c' t' = In_ o p k /\ forall r, answers RF WF M p r -> answers RF WF M (progOf o) r).
    { intros t u sh' He -> a t' o b Ht E Hb. cbn. rewrite fupd_other by congruence.
      destruct (ustep_ev _ _ _ S) as [->|(e & ->)].
      - rewrite app_nil_r in E. eapply IH; eauto.
      - destruct (snoc_mid _ _ _ _ _ E) as [(b' & -> & E')|(-> & <- & ->)].
        + eapply IH; eauto. intros o' r'. specialize (Hb o' r'). rewrite !in_app_iff in Hb. tauto.
        + destruct (He (UInv t' o) (or_introl eq_refl) t' o RUnit Ht); congruence. }
    intros a t' o' b E Hb.
    destruct S as [t o k sh th Et|t o r k sh th Et|t o p k sh th Et|t o p p' k sh sh' th Et T|t key k sh sh' th Et T
                  |t key k sh sh' th Et T|t key k sh sh' th Et T|t s k sh sh' th Et T|t key k sh sh' th Et T]; cbn [umem uthr] in *;
      (destruct (Nat.eq_dec t' t) as [->|Ht];
        [|eapply KEEP; eauto; intros e He ? ? ? ?; cbn in He; destruct He as [<-|[]] || destruct He; split; congruence]);
      rewrite fupd_same; clear KEEP.
    - destruct (snoc_mid _ _ _ _ _ E) as [(b' & -> & E')|(-> & Ho & ->)].
      + exfalso. apply (proj1 (Hb o RUnit)). apply in_or_app. right. now left.
      + injection Ho as ->. eauto.
    - destruct (snoc_mid _ _ _ _ _ E) as [(b' & -> & E')|(_ & Ho & _)]; [|discriminate].
      exfalso. apply (proj2 (Hb o r)). apply in_or_app. right. now left.
    - rewrite app_nil_r in E. destruct (IH _ _ _ _ E Hb) as (p0 & k0 & Ep & A). rewrite Et in Ep. injection Ep as <- <- <-. eauto.
    - rewrite app_nil_r in E. destruct (IH _ _ _ _ E Hb) as (p0 & k0 & Ep & A). rewrite Et in Ep. injection Ep as <- <- <-. eauto 6.
    - exfalso. destruct (snoc_mid _ _ _ _ _ E) as [(b' & -> & E')|(_ & Ho & _)]; [|discriminate].
      destruct (IH _ _ _ _ E') as (p0 & k0 & Ep & _); [|congruence]. intros o2 r2. specialize (Hb o2 r2). rewrite !in_app_iff in Hb. tauto.
    - exfalso. destruct (snoc_mid _ _ _ _ _ E) as [(b' & -> & E')|(_ & Ho & _)]; [|discriminate].
      destruct (IH _ _ _ _ E') as (p0 & k0 & Ep & _); [|congruence]. intros o2 r2. specialize (Hb o2 r2). rewrite !in_app_iff in Hb. tauto.
    - exfalso. rewrite app_nil_r in E. destruct (IH _ _ _ _ E Hb) as (p0 & k0 & Ep & _). congruence.
    - exfalso. destruct (snoc_mid _ _ _ _ _ E) as [(b' & -> & E')|(_ & Ho & _)]; [|discriminate].
      destruct (IH _ _ _ _ E') as (p0 & k0 & Ep & _); [|congruence]. intros o2 r2. specialize (Hb o2 r2). rewrite !in_app_iff in Hb. tauto.
    - exfalso. destruct (snoc_mid _ _ _ _ _ E) as [(b' & -> & E')|(_ & Ho & _)]; [|discriminate].
      destruct (IH _ _ _ _ E') as (p0 & k0 & Ep & _); [|congruence]. intros o2 r2. specialize (Hb o2 r2). rewrite !in_app_iff in Hb. tauto.
  Qed.

  Lemma section_answers clients tr1 c1 tr2 c2 t o r : (forall t, noClear (clients t)) ->
    uruns (ustart clients) tr1 c1 -> uruns c1 tr2 c2 -> callIn tr2 t o r ->
    answers (fun s => exists t, readSection t s tr1 tr2) (fun s => exists t, writeSection t s tr1 tr2)
      (items (umem c1)) (progOf o) r.
  Proof.
    intros NC U1 U2 (a & b & d & E & Hb).
    replace (a ++ UInv t o :: b ++ URet t o r :: d) with ((a ++ UInv t o :: b) ++ URet t o r :: d) in E by (now rewrite <- app_assoc).
    destruct (uruns_split _ _ _ U2 _ _ _ E) as (c & c' & H1 & H2 & H3).
    destruct (open_calls _ tr1 c1 tr2 (uinv_start _ NC) U1 _ _ H1) as [_ O].
    { rewrite E. eauto. }
    destruct (O _ _ _ _ eq_refl Hb) as (p & k & Ep & Hp). apply Hp. inversion H2; subst. cbn in Ep.
    match goal with H : ?th t = In_ o (Ret r) _, H' : ?th t = _ |- _ => rewrite H in H'; injection H' as <- <- end. reflexivity.
  Qed.

  (** The calls over all shards, all of them held. *)
  Section Whole.
    Variables (RF WF : nat -> Prop) (M : nat -> gomap K V).
    Notation answers := (answers RF WF M).

    Lemma len_answers ss n r : (forall s, In s ss -> F RF WF s) -> answers (lenP ss n) r -> r = RInt (n + zlen (flat_map M ss)).
    Proof.
      revert n. induction ss as [|s ss IH]; intros n H A; cbn in A |- *.
      - rewrite A. f_equal. cbn. lia.
      - destruct A as (_ & m & Hm & A). rewrite (Hm (H s (or_introl eq_refl))) in A.
        rewrite (IH _ (fun x Hx => H x (or_intror Hx)) A). f_equal. unfold glen, zlen. rewrite app_length. lia.
    Qed.
    Lemma empty_answers ss r : (forall s, In s ss -> F RF WF s) -> answers (emptyP ss) r ->
      r = RBool (match flat_map M ss with [] => true | _ => false end).
    Proof.
      induction ss as [|s ss IH]; intros H A; cbn in A |- *; [assumption|].
      destruct A as (_ & m & Hm & A). rewrite (Hm (H s (or_introl eq_refl))) in A. destruct (M s) as [|e l]; cbn in A |- *.
      - apply IH; [|assumption]. intros x Hx. apply H. now right.
      - unfold glen, zlen in A. cbn in A. exact A.
    Qed.
    Lemma readOnly_answers {B} (g : K * V -> B) ss (fin : list B -> res) acc r : (forall s, In s ss -> F RF WF s) ->
      answers (readOnlyP ss (fun x l => x ++ map g l) fin acc) r ->
      exists l, Permutation l (flat_map M ss) /\ r = fin (acc ++ map g l).
    Proof.
      revert acc. induction ss as [|s ss IH]; intros acc H HA; cbn in HA |- *.
      - exists []. rewrite app_nil_r. auto.
      - destruct HA as (_ & m & Hm & HA). destruct (IH _ (fun x Hx => H x (or_intror Hx)) HA) as (l & Pl & ->).
        exists (m ++ l). split; [apply Permutation_app; [apply Hm, H; now left|assumption]|].
        now rewrite map_app, app_assoc.
    Qed.
  End Whole.

  Lemma uruns_cons c ev c' tr c'' : ustep c ev c' -> uruns c' tr c'' -> uruns c (ev ++ tr) c''.
  Proof.
    intros S. induction 1 as [|c' tr c1 ev1 c2 U IH S1].
    - rewrite app_nil_r. apply (uruns_step _ _ _ _ c [] c); [constructor|assumption].
    - rewrite app_assoc. econstructor; eauto.
  Qed.
End OuterProofs.
