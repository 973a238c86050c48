(** Proofs about map variables. *)
From Coq Require Import Permutation Lia.
From Verif Require Import Base Arr Exn GoMap XMap_Spec MapRef_Model MapRef_Spec.
Local Open Scope exn_scope.
Local Open Scope list_scope.

Section Proofs.
  Context {K V : Type} (eqb : K -> K -> bool) (D : decides eqb) (hashable : K -> bool) (star : V).
  Notation world := (world K V).
  Notation value := (value eqb hashable star).
  Notation seen := (seen eqb hashable star).
  Notation entries := (entries eqb hashable star).
  Notation answer := (answer eqb hashable star).
  Notation exec := (exec eqb hashable star).

  Lemma PE : partial_equiv eqb. Proof. apply (eq_pe _ (decides_equiv _ D)). Qed.

  Lemma refers_lt (h : list (op K V)) x n : refers h x = Some n -> (n < List.length h)%nat.
  Proof.
    revert x. induction h as [|o h IH]; intros x; cbn; [discriminate|].
    assert (G : forall y, refers h y = Some n -> (n < S (List.length h))%nat) by (intros y E; apply IH in E; lia).
    destruct o; eauto; destruct (Nat.eqb x _); eauto; try discriminate. intros [= <-]. lia.
  Qed.

  Lemma value_fresh h n k : (List.length h <= n)%nat -> value h n k = None.
  Proof.
    induction h as [|o h IH]; cbn; [reflexivity|]. intros Hn.
    assert (E : forall x (a : option V), match refers h x with Some m => if Nat.eqb m n then a else value h n k | None => value h n k end = None).
    { intros x a. destruct (refers h x) as [m|] eqn:Er; [|apply IH; lia]. apply refers_lt in Er.
      replace (Nat.eqb m n) with false by (symmetry; apply Nat.eqb_neq; lia). apply IH. lia. }
    destruct o; try apply E; apply IH; lia.
  Qed.

  Lemma value_hashable h n k v : value h n k = Some v -> hashable k = true.
  Proof.
    revert v. induction h as [|o h IH]; intros v; cbn; [discriminate|].
    destruct o; eauto; destruct (refers h x) as [m|]; eauto; destruct (Nat.eqb m n); eauto; try discriminate.
    all: destruct (hashable k0) eqn:Eh; cbn; eauto; destruct (eqb k0 k) eqn:E; eauto; try discriminate.
    all: apply D in E; subst; auto.
  Qed.

  (** [times]: the numbers of the statements that made the objects. *)
  Record rep (times : list nat) (h : list (op K V)) (w : world) : Prop := {
    r_len : List.length times = List.length (objects w);
    r_nodup : NoDup times;
    r_old : Forall (fun n => (n < List.length h)%nat) times;
    r_vars : forall x, match vars w x with
                       | None => refers h x = None
                       | Some i => exists n, nth_error times i = Some n /\ refers h x = Some n
                       end;
    r_objects : forall i n m, nth_error times i = Some n -> nth_error (objects w) i = Some m ->
      wfm eqb m /\ forall k, gget eqb m k = value h n k }.

  (** What a variable shows. *)
  Lemma rep_seen times h w x : rep times h w ->
    wfm eqb (contents (vars w x) w) /\ forall k, gget eqb (contents (vars w x) w) k = seen h x k.
  Proof.
    intros R. pose proof (r_vars _ _ _ R x) as Hx. unfold contents, MapRef_Spec.seen. destruct (vars w x) as [i|].
    - destruct Hx as (n & E1 & E2). rewrite E2.
      assert (Hi : (i < List.length (objects w))%nat) by (rewrite <- (r_len _ _ _ R); apply nth_error_Some; congruence).
      destruct (nth_error (objects w) i) as [m|] eqn:E; [|apply nth_error_None in E; lia].
      apply (r_objects _ _ _ R i n m E1 E).
    - rewrite Hx. split; [exact I|]. reflexivity.
  Qed.

  Lemma rep_entries times h w x order : rep times h w -> Permutation order (contents (vars w x) w) -> entries h x order.
  Proof.
    intros R P. destruct (rep_seen times h w x R) as [Hw Hg]. split.
    - apply (Permutation_NoDup (Permutation_sym (Permutation_map fst P))). now apply (wfm_nodup eqb D).
    - intros k v. rewrite <- Hg, (gget_iff_in eqb D) by assumption. split; apply Permutation_in; [|apply Permutation_sym]; assumption.
  Qed.

  (** A statement that writes nothing. *)
  Lemma rep_same times h w o : rep times h w -> (forall x, refers (o :: h) x = refers h x) ->
    (forall n k, value (o :: h) n k = value h n k) -> rep times (o :: h) w.
  Proof.
    intros R Hr Hv. destruct R as [A B C F G]. split; auto.
    - eapply Forall_impl; [|exact C]. cbn. intros; lia.
    - intros x. rewrite Hr. apply F.
    - intros i n m E1 E2. destruct (G i n m E1 E2) as [G1 G2]. split; [assumption|]. intros k. now rewrite Hv.
  Qed.

  (** A statement that writes to the object of variable [x]. *)
  Lemma rep_write times h w o x i n l : rep times h w -> (forall y, refers (o :: h) y = refers h y) ->
    vars w x = Some i -> refers h x = Some n -> wfm eqb l ->
    (forall k, value (o :: h) n k = gget eqb l k) ->
    (forall n' k, n' <> n -> value (o :: h) n' k = value h n' k) ->
    rep times (o :: h) {| objects := upd (objects w) i l; vars := vars w |}.
  Proof.
    intros R Hr Ex En Hl Hv Ho. pose proof (r_vars _ _ _ R x) as Hx. rewrite Ex in Hx. destruct Hx as (n' & Et & E).
    rewrite En in E. injection E as <-. destruct R as [A B C F G]. split; cbn [objects vars]; auto.
    - now rewrite length_upd.
    - eapply Forall_impl; [|exact C]. cbn. intros; lia.
    - intros y. rewrite Hr. apply F.
    - intros j m l' E1 E2. assert (Hi : (i < List.length (objects w))%nat) by (rewrite <- A; apply nth_error_Some; congruence).
      rewrite nth_error_upd in E2 by assumption. destruct (Nat.eqb j i) eqn:Ej.
      + apply Nat.eqb_eq in Ej; subst j. injection E2 as <-. rewrite Et in E1. injection E1 as <-.
        split; [assumption|]. intros k. now rewrite Hv.
      + apply Nat.eqb_neq in Ej. assert (m <> n).
        { intros ->. apply Ej. eapply (proj1 (NoDup_nth_error times) B); [|congruence]. apply nth_error_Some. congruence. }
        destruct (G j m l' E1 E2) as [G1 G2]. split; [assumption|]. intros k. rewrite Ho by assumption. apply G2.
  Qed.

  (** What the statements that read an entry do. *)
  Lemma index_eq m k (w : world) : index eqb hashable m k w =
    if hashable k then (Ok (gget eqb (contents m w) k), w) else (Panic "hash of unhashable type"%string, w).
  Proof. unfold index, hash, xbind, xget, xret, xpanic. now destruct (hashable k). Qed.
  Lemma remove_eq m k (w : world) : remove eqb hashable m k w =
    if hashable k then (Ok tt, match m with None => w | Some i => {| objects := upd (objects w) i (gdel eqb (contents m w) k); vars := vars w |} end)
    else (Panic "hash of unhashable type"%string, w).
  Proof. unfold remove, hash, store, xbind, xget, xret, xpanic. destruct (hashable k); [|reflexivity]. now destruct m. Qed.
  Lemma assign_eq m k v (w : world) : assign eqb hashable m k v w =
    match m with
    | None => (Panic "assignment to entry in nil map"%string, w)
    | Some i => if hashable k then (Ok tt, {| objects := upd (objects w) i (gset eqb (contents m w) k v); vars := vars w |})
                else (Panic "hash of unhashable type"%string, w)
    end.
  Proof. destruct m; cbn; [|reflexivity]. unfold hash, store, xbind, xget, xret, xpanic. now destruct (hashable k). Qed.

  Lemma clear_eq order i : forall (w : world), Forall (fun e => hashable (fst e) = true) order -> (i < List.length (objects w))%nat ->
    Clear eqb hashable order (Some i) w =
      (Ok tt, {| objects := upd (objects w) i (fold_left (fun l e => gdel eqb l (fst e)) order (contents (Some i) w)); vars := vars w |}).
  Proof.
    induction order as [|[k v] order IH]; intros w Hh Hi.
    - cbn. unfold xret. f_equal. destruct w as [os vs]. cbn in *. f_equal. clear -Hi.
      revert i Hi. induction os as [|o os IH]; intros i Hi; [cbn in Hi; lia|]. destruct i; cbn; [reflexivity|]. f_equal.
      apply IH. cbn in Hi. lia.
    - inversion Hh as [|? ? H1 H2]; subst. cbn [fst] in H1. cbn [Clear fold_left]. unfold xbind. rewrite remove_eq, H1.
      rewrite IH by (try assumption; cbn; now rewrite length_upd). cbn [objects vars contents fst]. f_equal.
      rewrite nth_error_upd, Nat.eqb_refl by assumption. f_equal.
      clear. generalize (fold_left (fun l e => gdel eqb l (fst e)) order (gdel eqb (match nth_error (objects w) i with Some l => l | None => [] end) k)).
      generalize (gdel eqb (match nth_error (objects w) i with Some l => l | None => [] end) k). intros a b.
      revert i. induction (objects w) as [|o os IH]; intros [|i]; cbn; try reflexivity. now rewrite IH.
  Qed.

  Lemma cleared (order : list (K * V)) m : (forall k v, In (k, v) m -> In (k, v) order) -> wfm eqb m ->
    fold_left (fun l e => gdel eqb l (fst e)) order m = [].
  Proof.
    revert m. induction order as [|[k v] order IH]; intros m H Hw; cbn.
    - destruct m as [|[k v] m]; [reflexivity|]. destruct (H k v). now left.
    - apply IH; [|now apply wfm_gdel, Hw; exact PE]. intros k' v' Hin.
      assert (Hw' : wfm eqb (gdel eqb m k)) by (apply wfm_gdel; [exact PE|assumption]).
      apply (gget_iff_in eqb D _ Hw') in Hin. rewrite gget_gdel in Hin by exact PE.
      destruct (eqb k k') eqn:E; [discriminate|]. apply (gget_iff_in eqb D _ Hw) in Hin. apply H in Hin as [[= <- <-]|Hin]; [|assumption].
      rewrite (eqb_refl_ eqb D) in E. discriminate.
  Qed.

  Lemma entries_eq order l (w : world) : Entries order l w = (Ok (l ++ order), w).
  Proof.
    revert l. induction order as [|[k v] order IH]; intros l; cbn; [unfold xret; now rewrite app_nil_r|].
    rewrite IH. now rewrite <- app_assoc.
  Qed.
  Lemma keys_eq order l (w : world) : Keys order l w = (Ok (l ++ map fst order), w).
  Proof.
    revert l. induction order as [|[k v] order IH]; intros l; cbn; [unfold xret; now rewrite app_nil_r|].
    rewrite IH. now rewrite <- app_assoc.
  Qed.
  Lemma values_eq order l (w : world) : Values order l w = (Ok (l ++ map snd order), w).
  Proof.
    revert l. induction order as [|[k v] order IH]; intros l; cbn; [unfold xret; now rewrite app_nil_r|].
    rewrite IH. now rewrite <- app_assoc.
  Qed.

  Lemma rep_setVar times h w o x m : rep times h w -> (forall n k, value (o :: h) n k = value h n k) ->
    (forall y, refers (o :: h) y = if Nat.eqb y x then match m with None => None | Some i => nth_error times i end else refers h y) ->
    (forall i, m = Some i -> (i < List.length times)%nat) ->
    rep times (o :: h) {| objects := objects w; vars := fun y => if Nat.eqb y x then m else vars w y |}.
  Proof.
    intros [A B C F G] Hv Hr Hm. split; cbn [objects vars]; auto.
    - eapply Forall_impl; [|exact C]. cbn. intros; lia.
    - intros y. rewrite Hr. destruct (Nat.eqb y x); [|apply F]. destruct m as [i|]; [|reflexivity].
      destruct (nth_error times i) as [n|] eqn:E; [eauto|]. apply nth_error_None in E. pose proof (Hm i eq_refl). lia.
    - intros i n l E1 E2. destruct (G i n l E1 E2) as [G1 G2]. split; [assumption|]. intros k. now rewrite Hv.
  Qed.

  Lemma panics_key h o k : keyOf o = Some k -> hashable k = false -> panics eqb hashable star h o.
  Proof. intros. left. eauto. Qed.

  Lemma not_panics h o : (forall k, keyOf o = Some k -> hashable k = true) ->
    (forall x, adds eqb hashable star h o = Some x -> refers h x <> None) -> ~ panics eqb hashable star h o.
  Proof. intros H1 H2 [(k & E & F)|(x & E & F)]; [rewrite (H1 k E) in F; discriminate|]. now apply (H2 x E). Qed.

  Lemma answer_panic h o e : panics eqb hashable star h o -> answer h o (Panic e).
  Proof. intros H. split; [eauto|]. now intros []. Qed.

  Lemma rep_refers times h w x : rep times h w ->
    (vars w x = None /\ refers h x = None) \/ exists i n, vars w x = Some i /\ refers h x = Some n /\ nth_error times i = Some n.
  Proof. intros R. pose proof (r_vars _ _ _ R x). destruct (vars w x) as [i|]; [|auto]. destruct H as (n & H1 & H2). right. eauto 6. Qed.

  (** Statements with a key that cannot be hashed change nothing. *)
  Lemma value_unhashable h n k o k' : keyOf o = Some k' -> hashable k' = false -> value (o :: h) n k = value h n k.
  Proof.
    intros E H. destruct o; try discriminate; injection E as <-; cbn; try reflexivity; rewrite ?H; cbn;
    destruct (refers h x) as [m|]; try reflexivity; now destruct (Nat.eqb m n).
  Qed.
  (** Nor do those that go through nil. *)
  Lemma value_nil h n k o x :
    match o with Assign y _ _ | Add y _ | TryAdd y _ | Del y _ | TryDelete y _ | Clr y => y = x | _ => False end ->
    refers h x = None -> value (o :: h) n k = value h n k.
  Proof. intros E H. destruct o; try easy; subst x; cbn; now rewrite H. Qed.
  Lemma value_other h n n' k o x :
    match o with Assign y _ _ | Add y _ | TryAdd y _ | Del y _ | TryDelete y _ | Clr y => y = x | _ => False end ->
    refers h x = Some n' -> n' <> n -> value (o :: h) n k = value h n k.
  Proof. intros E H Hn. apply Nat.eqb_neq in Hn. destruct o; try easy; subst x; cbn; now rewrite H, Hn. Qed.

  Lemma step_ok times h w o order r w' : rep times h w ->
    (forall x, ranged o = Some x -> Permutation order (contents (vars w x) w)) ->
    exec o order w = (r, w') -> answer h o r /\ exists times', rep times' (o :: h) w'.
  Proof.
    intros R P E. unfold MapRef_Model.exec in E. unfold xbind at 1, xget at 1 in E.
    destruct o as [x|x|x y|x k|x k v|x|x k|x|x|x|x|x k|x k|x k|x k].
    - (* New *) unfold xbind, make, setVar in E. injection E as <- <-. split.
      { split; [intros [(k & [=] & _)|(y & [=] & _)]|reflexivity]. }
      exists (times ++ [List.length h]). destruct R as [A B C F G]. split; cbn [objects vars].
      + rewrite !app_length, A. reflexivity.
      + apply (Permutation_NoDup (Permutation_cons_append times (List.length h))). constructor; [|assumption].
        intros Hin. rewrite Forall_forall in C. apply C in Hin. lia.
      + apply Forall_app. split; [eapply Forall_impl; [|exact C]; cbn; intros; lia|]. constructor; [cbn; lia|constructor].
      + intros y. cbn [refers]. destruct (Nat.eqb y x) eqn:Ey.
        * exists (List.length h). split; [|reflexivity]. rewrite <- A, nth_error_app2, Nat.sub_diag by lia. reflexivity.
        * specialize (F y). destruct (vars w y) as [i|]; [|assumption]. destruct F as (n & F1 & F2). exists n.
          split; [|assumption]. rewrite nth_error_app1; [assumption|]. apply nth_error_Some. congruence.
      + intros i n m E1 E2. destruct (Nat.lt_ge_cases i (List.length times)) as [Hi|Hi].
        * rewrite nth_error_app1 in E1, E2 by lia. apply (G i n m E1 E2).
        * rewrite nth_error_app2 in E1, E2 by lia. rewrite <- A in E2. destruct (i - List.length times)%nat as [|j]; [|destruct j; discriminate].
          cbn in E1, E2. injection E1 as <-. injection E2 as <-. split; [exact I|]. intros k. cbn [gget].
          symmetry. apply (value_fresh h). lia.
    - (* Nil *) injection E as <- <-. split.
      { split; [intros [(k & [=] & _)|(y & [=] & _)]|reflexivity]. }
      exists times. apply rep_setVar; [assumption|reflexivity|reflexivity|discriminate].
    - (* Copy *) injection E as <- <-. split.
      { split; [intros [(k & [=] & _)|(z & [=] & _)]|reflexivity]. }
      exists times. apply rep_setVar; [assumption|reflexivity| |].
      + intros z. cbn [refers]. destruct (Nat.eqb z x); [|reflexivity]. destruct (rep_refers _ _ _ y R) as [[-> ->]|(i & n & -> & -> & ->)]; reflexivity.
      + intros i Ei. destruct (rep_refers _ _ _ y R) as [[E _]|(j & n & E & _ & E2)]; rewrite E in Ei; [discriminate|].
        injection Ei as <-. apply nth_error_Some. congruence.
    - (* Index *) unfold xbind in E. rewrite index_eq in E. destruct (hashable k) eqn:Hk; injection E as <- <-.
      + split; [|exists times; now apply rep_same].
        split; [|intros _; now rewrite (proj2 (rep_seen _ _ _ x R))].
        intros [(k' & [= <-] & F)|(y & [=] & _)]. congruence.
      + split; [|exists times; now apply rep_same]. apply answer_panic. eapply panics_key; [reflexivity|assumption].
    - (* Assign *) unfold xbind in E. rewrite assign_eq in E. destruct (rep_refers _ _ _ x R) as [[Ex En]|(i & n & Ex & En & Et)]; rewrite Ex in E.
      + injection E as <- <-. split; [apply answer_panic; right; exists x; auto|]. exists times. apply rep_same; [assumption|reflexivity|].
        intros. eapply value_nil; [reflexivity|assumption].
      + destruct (hashable k) eqn:Hk; injection E as <- <-.
        * split.
          { split; [|reflexivity]. intros HP. exfalso. revert HP. apply not_panics; cbn; [congruence|]. intros y [= <-]. congruence. }
          destruct (rep_seen _ _ _ x R) as [Hw Hg]. rewrite Ex in Hw, Hg. exists times.
          eapply rep_write; [exact R|reflexivity|exact Ex|exact En|apply wfm_gset; [exact PE|exact Hw]| |].
          -- intros k'. rewrite gget_gset by exact PE. cbn [MapRef_Spec.value]. rewrite En, Nat.eqb_refl, Hk. cbn [andb].
             destruct (eqb k k'); [reflexivity|]. rewrite Hg. unfold MapRef_Spec.seen. now rewrite En.
          -- intros n' k' Hn. eapply value_other; [reflexivity|exact En|congruence].
        * split; [apply answer_panic; eapply panics_key; [reflexivity|assumption]|]. exists times.
          apply rep_same; [assumption|reflexivity|]. intros. eapply value_unhashable; [reflexivity|assumption].
    - (* Len *) unfold count, xbind, xget, xret in E. injection E as <- <-. split; [|exists times; now apply rep_same].
      split; [intros [(k & [=] & _)|(y & [=] & _)]|]. intros _. exists (contents (vars w x) w). split; [|reflexivity].
      eapply rep_entries; [exact R|reflexivity].
    - (* Del *) unfold Delete, xbind in E. rewrite remove_eq in E. destruct (hashable k) eqn:Hk.
      + injection E as <- <-. split.
        { split; [|reflexivity]. intros HP. exfalso. revert HP. apply not_panics; cbn; [congruence|discriminate]. }
        destruct (rep_refers _ _ _ x R) as [[Ex En]|(i & n & Ex & En & Et)]; rewrite Ex; exists times.
        * apply rep_same; [assumption|reflexivity|]. intros. eapply value_nil; [reflexivity|assumption].
        * destruct (rep_seen _ _ _ x R) as [Hw Hg]. rewrite Ex in Hw, Hg.
          eapply rep_write; [exact R|reflexivity|exact Ex|exact En|apply wfm_gdel; [exact PE|exact Hw]| |].
          -- intros k'. rewrite gget_gdel by exact PE. cbn [MapRef_Spec.value]. rewrite En, Nat.eqb_refl, Hk. cbn [andb].
             destruct (eqb k k'); [reflexivity|]. rewrite Hg. unfold MapRef_Spec.seen. now rewrite En.
          -- intros n' k' Hn. eapply value_other; [reflexivity|exact En|congruence].
      + injection E as <- <-. split; [apply answer_panic; eapply panics_key; [reflexivity|assumption]|]. exists times.
        apply rep_same; [assumption|reflexivity|]. intros. eapply value_unhashable; [reflexivity|assumption].
    - (* Clr *) specialize (P x eq_refl). destruct (rep_refers _ _ _ x R) as [[Ex En]|(i & n & Ex & En & Et)]; rewrite Ex in E, P.
      + cbn [contents] in P. apply Permutation_sym, Permutation_nil in P. subst order. injection E as <- <-. split.
        { split; [intros [(k & [=] & _)|(y & [=] & _)]|reflexivity]. }
        exists times. apply rep_same; [assumption|reflexivity|]. intros. eapply value_nil; [reflexivity|assumption].
      + destruct (rep_seen _ _ _ x R) as [Hw Hg]. rewrite Ex in Hw, Hg.
        assert (Hi : (i < List.length (objects w))%nat) by (rewrite <- (r_len _ _ _ R); apply nth_error_Some; congruence).
        unfold xbind in E. rewrite clear_eq in E; [|clear E|assumption].
        2:{ rewrite Forall_forall. intros [k v] Hin. cbn [fst]. apply (Permutation_in _ P) in Hin.
            apply (gget_iff_in eqb D _ Hw) in Hin. rewrite Hg in Hin. unfold MapRef_Spec.seen in Hin. rewrite En in Hin.
            eapply value_hashable. exact Hin. }
        rewrite cleared in E; [|intros k v; apply Permutation_in, Permutation_sym, P|exact Hw]. injection E as <- <-. split.
        { split; [intros [(k & [=] & _)|(y & [=] & _)]|reflexivity]. }
        exists times. eapply rep_write; [exact R|reflexivity|exact Ex|exact En|exact I| |].
        * intros k. cbn [MapRef_Spec.value gget]. now rewrite En, Nat.eqb_refl.
        * intros n' k' Hn. eapply value_other; [reflexivity|exact En|congruence].
    - unfold xbind in E. rewrite entries_eq in E. injection E as <- <-. split; [|exists times; now apply rep_same].
      split; [intros [(k & [=] & _)|(y & [=] & _)]|]. intros _. exists order. split; [|reflexivity]. eapply rep_entries; [exact R|now apply P].
    - unfold xbind in E. rewrite keys_eq in E. injection E as <- <-. split; [|exists times; now apply rep_same].
      split; [intros [(k & [=] & _)|(y & [=] & _)]|]. intros _. exists order. split; [|reflexivity]. eapply rep_entries; [exact R|now apply P].
    - unfold xbind in E. rewrite values_eq in E. injection E as <- <-. split; [|exists times; now apply rep_same].
      split; [intros [(k & [=] & _)|(y & [=] & _)]|]. intros _. exists order. split; [|reflexivity]. eapply rep_entries; [exact R|now apply P].
    - (* Add *) unfold sAdd, xbind in E. rewrite assign_eq in E. destruct (rep_refers _ _ _ x R) as [[Ex En]|(i & n & Ex & En & Et)]; rewrite Ex in E.
      + injection E as <- <-. split; [apply answer_panic; right; exists x; auto|]. exists times. apply rep_same; [assumption|reflexivity|].
        intros. eapply value_nil; [reflexivity|assumption].
      + destruct (hashable k) eqn:Hk; injection E as <- <-.
        * split.
          { split; [|reflexivity]. intros HP. exfalso. revert HP. apply not_panics; cbn; [congruence|]. intros y [= <-]. congruence. }
          destruct (rep_seen _ _ _ x R) as [Hw Hg]. rewrite Ex in Hw, Hg. exists times.
          eapply rep_write; [exact R|reflexivity|exact Ex|exact En|apply wfm_gset; [exact PE|exact Hw]| |].
          -- intros k'. rewrite gget_gset by exact PE. cbn [MapRef_Spec.value]. rewrite En, Nat.eqb_refl, Hk. cbn [andb].
             destruct (eqb k k'); [reflexivity|]. rewrite Hg. unfold MapRef_Spec.seen. now rewrite En.
          -- intros n' k' Hn. eapply value_other; [reflexivity|exact En|congruence].
        * split; [apply answer_panic; eapply panics_key; [reflexivity|assumption]|]. exists times.
          apply rep_same; [assumption|reflexivity|]. intros. eapply value_unhashable; [reflexivity|assumption].
    - (* TryAdd *) unfold sTryAdd, xbind in E. rewrite index_eq in E. destruct (hashable k) eqn:Hk.
      2:{ injection E as <- <-. split; [apply answer_panic; eapply panics_key; [reflexivity|assumption]|]. exists times.
          apply rep_same; [assumption|reflexivity|]. intros. eapply value_unhashable; [reflexivity|assumption]. }
      destruct (rep_seen _ _ _ x R) as [Hw Hg]. rewrite Hg in E. destruct (seen h x k) as [v|] eqn:Es.
      + injection E as <- <-. split.
        { split; [|intros _; now rewrite Es]. intros HP. exfalso. revert HP. apply not_panics; cbn; [congruence|]. rewrite Es. discriminate. }
        exists times. apply rep_same; [assumption|reflexivity|]. intros n k'. cbn [MapRef_Spec.value].
        unfold MapRef_Spec.seen in Es. destruct (refers h x) as [m|]; [|reflexivity]. destruct (Nat.eqb m n) eqn:Em; [|reflexivity].
        apply Nat.eqb_eq in Em; subst m. destruct (hashable k && eqb k k') eqn:Ek; [|reflexivity].
        apply andb_prop in Ek as [_ Ek]. apply D in Ek; subst k'. now rewrite Es.
      + rewrite assign_eq in E. destruct (rep_refers _ _ _ x R) as [[Ex En]|(i & n & Ex & En & Et)]; rewrite Ex in E.
        * injection E as <- <-. split; [apply answer_panic; right; exists x; cbn; rewrite Es; auto|]. exists times.
          apply rep_same; [assumption|reflexivity|]. intros. eapply value_nil; [reflexivity|assumption].
        * rewrite Hk in E. injection E as <- <-. split.
          { split; [|intros _; now rewrite Es]. intros HP. exfalso. revert HP. apply not_panics; cbn; [congruence|]. rewrite Es. intros y [= <-]. congruence. }
          rewrite Ex in Hw, Hg. exists times.
          eapply rep_write; [exact R|reflexivity|exact Ex|exact En|apply wfm_gset; [exact PE|exact Hw]| |].
          -- intros k'. rewrite gget_gset by exact PE. cbn [MapRef_Spec.value]. rewrite En, Nat.eqb_refl, Hk. cbn [andb].
             unfold MapRef_Spec.seen in Es, Hg. rewrite En in Es, Hg.
             destruct (eqb k k') eqn:Ek; [|now rewrite Hg]. apply D in Ek; subst k'. now rewrite Es.
          -- intros n' k' Hn. eapply value_other; [reflexivity|exact En|congruence].
    - (* TryDelete *) unfold sTryDelete, xbind in E. rewrite index_eq in E. destruct (hashable k) eqn:Hk.
      2:{ injection E as <- <-. split; [apply answer_panic; eapply panics_key; [reflexivity|assumption]|]. exists times.
          apply rep_same; [assumption|reflexivity|]. intros. eapply value_unhashable; [reflexivity|assumption]. }
      destruct (rep_seen _ _ _ x R) as [Hw Hg]. rewrite Hg in E. destruct (seen h x k) as [v|] eqn:Es.
      + rewrite remove_eq, Hk in E. injection E as <- <-. split.
        { split; [|intros _; now rewrite Es]. intros HP. exfalso. revert HP. apply not_panics; cbn; [congruence|discriminate]. }
        destruct (rep_refers _ _ _ x R) as [[Ex En]|(i & n & Ex & En & Et)]; rewrite Ex; exists times.
        * apply rep_same; [assumption|reflexivity|]. intros. eapply value_nil; [reflexivity|assumption].
        * rewrite Ex in Hw, Hg.
          eapply rep_write; [exact R|reflexivity|exact Ex|exact En|apply wfm_gdel; [exact PE|exact Hw]| |].
          -- intros k'. rewrite gget_gdel by exact PE. cbn [MapRef_Spec.value]. rewrite En, Nat.eqb_refl, Hk. cbn [andb].
             destruct (eqb k k'); [reflexivity|]. rewrite Hg. unfold MapRef_Spec.seen. now rewrite En.
          -- intros n' k' Hn. eapply value_other; [reflexivity|exact En|congruence].
      + injection E as <- <-. split.
        { split; [|intros _; now rewrite Es]. intros HP. exfalso. revert HP. apply not_panics; cbn; [congruence|discriminate]. }
        exists times. apply rep_same; [assumption|reflexivity|]. intros n k'. cbn [MapRef_Spec.value].
        unfold MapRef_Spec.seen in Es. destruct (refers h x) as [m|]; [|reflexivity]. destruct (Nat.eqb m n) eqn:Em; [|reflexivity].
        apply Nat.eqb_eq in Em; subst m. destruct (hashable k && eqb k k') eqn:Ek; [|reflexivity].
        apply andb_prop in Ek as [_ Ek]. apply D in Ek; subst k'. now rewrite Es.
    - (* Has *) unfold sHas, xbind in E. rewrite index_eq in E. destruct (hashable k) eqn:Hk; injection E as <- <-.
      + split; [|exists times; now apply rep_same].
        split; [|intros _; now rewrite (proj2 (rep_seen _ _ _ x R))].
        intros [(k' & [= <-] & F)|(y & [=] & _)]. congruence.
      + split; [|exists times; now apply rep_same]. apply answer_panic. eapply panics_key; [reflexivity|assumption].
  Qed.

  Lemma rep_start : rep [] [] (@start K V).
  Proof. split; cbn; auto; [constructor|]. intros [|i] n m [=]. Qed.

  Lemma program_ok w ops rs : program eqb hashable star w ops rs -> forall times h, rep times h w -> hist answer h ops rs.
  Proof.
    induction 1 as [|w o order r w' os rs P E Hp IH]; intros times h R; [constructor|].
    destruct (step_ok times h w o order r w' R P E) as (Ha & times' & R'). constructor; eauto.
  Qed.
End Proofs.
