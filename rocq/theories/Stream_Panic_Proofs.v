(** Streams whose callbacks panic: the loop over the stages, element by element. *)
From Coq Require Import String.
From Verif Require Import Base Arr Exn Stream_Model Stream_Spec Stream_Panic_Spec.
Local Open Scope string_scope.
Local Open Scope list_scope.
Local Open Scope Z_scope.

Section Panic.
  Context {W S T : Type}.

  (** One element through the stages. *)
  Inductive fateP : Type := OutP (v : T) | BackP | HaltP | BadP (e : string).
  Fixpoint passP (gs : list (pstage T)) (v : T) : fateP * list (pstage T) :=
    match gs with
    | [] => (OutP v, [])
    | PFilter p :: r =>
        match p v with
        | inl true => let '(d, r') := passP r v in (d, PFilter p :: r')
        | inl false => (BackP, gs)
        | inr e => (BadP e, gs)
        end
    | PMap f :: r =>
        match f v with
        | inl v' => let '(d, r') := passP r v' in (d, PMap f :: r')
        | inr e => (BadP e, gs)
        end
    | PPeek c :: r =>
        match c v with
        | inl _ => let '(d, r') := passP r v in (d, PPeek c :: r')
        | inr e => (BadP e, gs)
        end
    | PSkip n :: r =>
        if n >? 0 then (BackP, PSkip (n - 1) :: r)
        else let '(d, r') := passP r v in (d, PSkip n :: r')
    | PLimit n :: r =>
        if n >? 0 then let '(d, r') := passP r v in (d, PLimit (n - 1) :: r')
        else (HaltP, gs)
    end.

  Definition through (gs : list (pstage T)) (l : list (item T)) : list (item T) :=
    fold_left (fun l g => papply g l) gs l.

  Lemma through_nil gs : through gs [] = [].
  Proof. unfold through. induction gs as [|g gs IH]; [reflexivity|]. now destruct g. Qed.
  Lemma through_bad gs e l : through gs (Bad e :: l) = Bad e :: through gs l.
  Proof. unfold through. revert l. induction gs as [|g gs IH]; intros l; [reflexivity|]. destruct g; apply IH. Qed.

  Lemma through_cons g gs l : through (g :: gs) l = through gs (papply g l).
  Proof. reflexivity. Qed.
  Lemma skip_none n (l : list (item T)) : n <= 0 -> skipItems n l = l.
  Proof.
    intros Hn. induction l as [|[v|e] l IH]; cbn [skipItems]; [reflexivity| |now rewrite IH].
    replace (n >? 0) with false by lia. reflexivity.
  Qed.

  Lemma through_val gs : forall v l, through gs (Val v :: l) =
    match passP gs v with
    | (OutP v', gs') => Val v' :: through gs' l
    | (BackP, gs') => through gs' l
    | (BadP e, gs') => Bad e :: through gs' l
    | (HaltP, _) => []
    end.
  Proof.
    induction gs as [|g gs IH]; intros v l; [reflexivity|]. rewrite through_cons.
    destruct g as [p|n|n|f|c]; cbn [papply passP flat_map onItem].
    - destruct (p v) as [[]|e]; cbn [app].
      + rewrite IH. destruct (passP gs v) as [[] ?]; reflexivity.
      + reflexivity.
      + now rewrite through_bad.
    - cbn [skipItems]. destruct (Z.gtb_spec n 0); [reflexivity|].
      rewrite IH. destruct (passP gs v) as [[] ?]; rewrite ?through_cons; cbn [papply]; rewrite ?skip_none by lia; reflexivity.
    - cbn [limitItems]. destruct (Z.gtb_spec n 0); [|apply through_nil].
      rewrite IH. destruct (passP gs v) as [[] ?]; reflexivity.
    - destruct (f v) as [v'|e]; cbn [app].
      + rewrite IH. destruct (passP gs v') as [[] ?]; reflexivity.
      + now rewrite through_bad.
    - destruct (c v) as [u|e]; cbn [app].
      + rewrite IH. destruct (passP gs v) as [[] ?]; reflexivity.
      + now rewrite through_bad.
  Qed.

  (** The ops of a stream and the stages they stand for. *)
  Inductive oper : op W T -> pstage T -> Prop :=
  | op_pred p q : tells p q -> oper (OPred p) (PFilter q)
  | op_skip n : oper (OSkip n) (PSkip n)
  | op_limit n : oper (OLimit n) (PLimit n)
  | op_map f g : tells f g -> oper (OMap f) (PMap g)
  | op_peek c g : tells c g -> oper (OPeek c) (PPeek g).

  Definition verdictOf (d : fateP) : outcome (verdict T) :=
    match d with OutP v => Ok (Emit v) | BackP => Ok Reject | HaltP => Ok Stop | BadP e => Panic e end.

  Lemma stages_pass todo gs : Forall2 oper todo gs -> forall done v w,
    exists todo' w', stages done todo v (done ++ todo, w) = (verdictOf (fst (passP gs v)), (done ++ todo', w')) /\
      Forall2 oper todo' (snd (passP gs v)).
  Proof.
    induction 1 as [|o g todo gs Ho HF IH]; intros done v w.
    - exists [], w. split; [reflexivity|constructor].
    - inversion Ho as [p q Hq|n|n|f q Hq|c q Hq]; subst; cbn [stages passP].
      + destruct (Hq v w) as (w1 & Ew). unfold xbind at 1, onWorld at 1. rewrite Ew.
        destruct (q v) as [[]|e].
        * destruct (IH (done ++ [OPred p]) v w1) as (todo' & w' & E & HF').
          rewrite <- !app_assoc in E. cbn [app] in E. rewrite E.
          destruct (passP gs v) as [d gs']. exists (OPred p :: todo'), w'. split; [reflexivity|].
          now constructor.
        * exists (OPred p :: todo), w1. split; [reflexivity|]. now constructor.
        * exists (OPred p :: todo), w1. split; [reflexivity|]. now constructor.
      + destruct (n >? 0).
        * exists (OSkip (n - 1) :: todo), w. split; [reflexivity|]. constructor; [constructor|assumption].
        * destruct (IH (done ++ [OSkip n]) v w) as (todo' & w' & E & HF').
          rewrite <- !app_assoc in E. cbn [app] in E. rewrite E.
          destruct (passP gs v) as [d gs']. exists (OSkip n :: todo'), w'. split; [reflexivity|].
          now constructor.
      + destruct (n >? 0).
        * unfold xbind, xget, xput. cbn [snd].
          destruct (IH (done ++ [OLimit (n - 1)]) v w) as (todo' & w' & E & HF').
          rewrite <- !app_assoc in E. cbn [app] in E. rewrite E.
          destruct (passP gs v) as [d gs']. exists (OLimit (n - 1) :: todo'), w'. split; [reflexivity|].
          constructor; [constructor|assumption].
        * exists (OLimit n :: todo), w. split; [reflexivity|]. constructor; [constructor|assumption].
      + destruct (Hq v w) as (w1 & Ew). unfold xbind at 1, onWorld at 1. rewrite Ew.
        destruct (q v) as [v1|e].
        * destruct (IH (done ++ [OMap f]) v1 w1) as (todo' & w' & E & HF').
          rewrite <- !app_assoc in E. cbn [app] in E. rewrite E.
          destruct (passP gs v1) as [d gs']. exists (OMap f :: todo'), w'. split; [reflexivity|].
          now constructor.
        * exists (OMap f :: todo), w1. split; [reflexivity|]. now constructor.
      + destruct (Hq v w) as (w1 & Ew). unfold xbind at 1, onWorld at 1. rewrite Ew.
        destruct (q v) as [u|e].
        * destruct (IH (done ++ [OPeek c]) v w1) as (todo' & w' & E & HF').
          rewrite <- !app_assoc in E. cbn [app] in E. rewrite E.
          destruct (passP gs v) as [d gs']. exists (OPeek c :: todo'), w'. split; [reflexivity|].
          now constructor.
        * exists (OPeek c :: todo), w1. split; [reflexivity|]. now constructor.
  Qed.

  (** The source. *)
  Context (src : source S W T) (D : S -> list T -> Z -> Prop).
  Hypothesis HD : delivers (fun _ : W => tt) src D.

  (** A stream that is going to tell the items [l]. *)
  Definition tellsItems (s : stream W T) (z : S) (m : nat) (l : list (item T)) : Prop :=
    if live s then
      exists gs ls b, Forall2 oper (ops s) gs /\ D z ls b /\ (List.length ls <= m)%nat /\
        l = through gs (map Val ls)
    else l = [].

  Lemma next_tells m s z w l fuel : tellsItems s z m l -> (m < fuel)%nat ->
    exists s' z' w',
      Next_ src fuel (s, (z, w)) =
        (match l with [] => Ok None | Val v :: _ => Ok (Some v) | Bad e :: _ => Panic e end, (s', (z', w'))) /\
      tellsItems s' z' m (tl l).
  Proof using HD.
    unfold tellsItems at 1, Next_, xbind at 1, xget at 1. cbn [fst].
    destruct (live s) eqn:Hl.
    2:{ intros -> _. eexists _, z, w. split; [reflexivity|]. reflexivity. }
    intros (gs & ls & b & HF & Hz & Hm & ->) Hfuel.
    assert (Hfl : (List.length ls < fuel)%nat) by lia. clear Hfuel.
    revert fuel gs s z w Hl HF Hz Hm Hfl.
    induction ls as [|x ls IH]; intros fuel gs s z w Hl HF Hz Hm Hf; (destruct fuel as [|fuel]; [cbn in Hf; lia|]);
      cbn [nextLoop map]; unfold xbind at 1, onSource at 1.
    - destruct (del_end _ _ _ HD z b w Hz) as (z' & w' & E & _). rewrite E. rewrite through_nil.
      eexists _, z', w'. split; [reflexivity|]. reflexivity.
    - destruct (del_next _ _ _ HD z x ls b w Hz) as (z' & w' & E & Hz' & _). rewrite E.
      unfold xbind at 1, runStages.
      destruct (stages_pass (ops s) gs HF [] x w') as (ops' & w1 & E1 & HF'). cbn [app] in E1. rewrite E1.
      rewrite through_val. destruct (passP gs x) as [d gs']. cbn [fst snd] in *.
      cbn [List.length] in Hf, Hm.
      destruct d as [v'| | |e]; cbn [verdictOf].
      + eexists _, z', w1. split; [reflexivity|]. unfold tellsItems. cbn [live ops tl]. rewrite Hl.
        exists gs', ls, b. split; [assumption|]. split; [assumption|]. split; [lia|reflexivity].
      + apply IH; [exact Hl|exact HF'|exact Hz'|lia|lia].
      + eexists _, z', w1. split; [reflexivity|]. reflexivity.
      + eexists _, z', w1. split; [reflexivity|]. unfold tellsItems. cbn [live ops tl]. rewrite Hl.
        exists gs', ls, b. split; [assumption|]. split; [assumption|]. split; [lia|reflexivity].
  Qed.

  Lemma tries_told fuel m k : (m < fuel)%nat -> forall s z w l, tellsItems s z m l ->
    tries src fuel k (s, (z, w)) = told k l.
  Proof using HD.
    intros Hf. induction k as [|k IH]; intros s z w l HT; [reflexivity|].
    destruct (next_tells m s z w l fuel HT Hf) as (s' & z' & w' & E & HT').
    cbn [tries]. rewrite E. rewrite (IH s' z' w' (tl l) HT').
    destruct l as [|[v|e] l]; reflexivity.
  Qed.

  (** The builder calls. *)
  Lemma atSource_nonneg (cs : list (build W T)) gs : Forall2 pstands cs gs -> 0 <= atSource gs.
  Proof. induction 1 as [|c g cs gs Hc HF IH]; [cbn; lia|]. destruct Hc; cbn [atSource]; lia. Qed.
  Lemma through_snoc os g l : through (os ++ [g]) l = papply g (through os l).
  Proof. unfold through. now rewrite fold_left_app. Qed.

  Lemma calls_behind cs gs : Forall2 pstands cs gs -> forall s z w ls b os,
    live s = true -> Forall2 oper (ops s) os -> D z ls b ->
    (if hasPred s then 0 else atSource gs) <= b ->
    exists s' z' w' gs', calls src cs (s, (z, w)) = (Ok tt, (s', (z', w'))) /\ live s' = true /\
      Forall2 oper (ops s') gs' /\
      (forall l, through gs' l = through (if hasPred s then gs else behind gs) (through os l)) /\
      exists b', D z' (skipn (Z.to_nat (if hasPred s then 0 else atSource gs)) ls) b'.
  Proof using HD.
    induction 1 as [|c g cs gs Hc HF IH]; intros s z w ls b os Hl HO Hz Hb.
    - exists s, z, w, os. cbn. split; [reflexivity|]. split; [exact Hl|]. split; [exact HO|]. split; [|exists b].
      + intros l. now destruct (hasPred s).
      + destruct (hasPred s); exact Hz.
    - assert (Hstep : exists s1 z1 w1 ls1 b1 os1, call src c (s, (z, w)) = (Ok tt, (s1, (z1, w1))) /\ live s1 = true /\
        Forall2 oper (ops s1) os1 /\ D z1 ls1 b1 /\ (if hasPred s1 then 0 else atSource gs) <= b1 /\
        (forall l, through (if hasPred s1 then gs else behind gs) (through os1 l) =
          through (if hasPred s then g :: gs else behind (g :: gs)) (through os l)) /\
        skipn (Z.to_nat (if hasPred s1 then 0 else atSource gs)) ls1 =
        skipn (Z.to_nat (if hasPred s then 0 else atSource (g :: gs))) ls).
      { assert (Hn : 0 <= atSource gs) by (apply (atSource_nonneg cs); exact HF).
        destruct Hc as [f q Hq|p q Hq|n Hn0|n Hn0|cc q Hq]; cbn [call].
        - exists (mkStream (live s) (ops s ++ [OMap f]) (hasPred s || false)), z, w, ls, b, (os ++ [PMap q]).
          split; [reflexivity|]. cbn [live ops hasPred]. rewrite orb_false_r. cbn [atSource behind] in *.
          split; [exact Hl|]. split; [apply Forall2_app; [exact HO|repeat constructor; exact Hq]|].
          split; [exact Hz|]. split; [exact Hb|]. split; [|reflexivity]. intros l. rewrite through_snoc. now destruct (hasPred s).
        - exists (mkStream (live s) (ops s ++ [OPred p]) (hasPred s || true)), z, w, ls, b, (os ++ [PFilter q]).
          split; [reflexivity|]. cbn [live ops hasPred]. rewrite orb_true_r. cbn [atSource behind] in *.
          split; [exact Hl|]. split; [apply Forall2_app; [exact HO|repeat constructor; exact Hq]|].
          split; [exact Hz|]. split; [now destruct (hasPred s)|].
          split; [intros l; rewrite through_snoc|]; now destruct (hasPred s).
        - unfold Skip. replace (n <? 0) with false by lia. destruct (Z.eqb_spec n 0) as [->|Hn1].
          + exists s, z, w, ls, b, os. split; [reflexivity|]. split; [exact Hl|]. split; [exact HO|]. split; [exact Hz|].
            cbn [atSource behind] in *. destruct (hasPred s).
            * split; [exact Hb|]. split; [|reflexivity]. intros l. rewrite through_cons. cbn [papply].
              now rewrite skip_none by lia.
            * split; [lia|]. split; [reflexivity|]. reflexivity.
          + unfold xbind at 1, xget. cbn [fst]. cbn [atSource behind] in *. destruct (hasPred s) eqn:Hp; cbn [negb].
            * exists (mkStream (live s) (ops s ++ [OSkip n]) true), z, w, ls, b, (os ++ [PSkip n]).
              unfold addOp. rewrite Hp. split; [reflexivity|]. cbn [live ops hasPred].
              split; [exact Hl|]. split; [apply Forall2_app; [exact HO|repeat constructor]|].
              split; [exact Hz|]. split; [exact Hb|]. split; [|reflexivity]. intros l. now rewrite through_snoc.
            * rewrite Hl. destruct (del_skip _ _ _ HD z ls b n w Hz ltac:(lia)) as (k & z' & w' & E & Hz' & _).
              exists s, z', w', (skipn (Z.to_nat n) ls), (b - n), os.
              unfold xbind, onSource. rewrite E. split; [reflexivity|]. rewrite Hp.
              split; [exact Hl|]. split; [exact HO|]. split; [exact Hz'|]. split; [lia|]. split; [reflexivity|].
              rewrite skipn_skipn'. f_equal. lia.
        - unfold Limit. replace (n <? 0) with false by lia.
          exists (mkStream (live s) (ops s ++ [OLimit n]) (hasPred s || true)), z, w, ls, b, (os ++ [PLimit n]).
          split; [reflexivity|]. cbn [live ops hasPred]. rewrite orb_true_r. cbn [atSource behind] in *.
          split; [exact Hl|]. split; [apply Forall2_app; [exact HO|repeat constructor]|].
          split; [exact Hz|]. split; [now destruct (hasPred s)|].
          split; [intros l; rewrite through_snoc|]; now destruct (hasPred s).
        - exists (mkStream (live s) (ops s ++ [OPeek cc]) (hasPred s || false)), z, w, ls, b, (os ++ [PPeek q]).
          split; [reflexivity|]. cbn [live ops hasPred]. rewrite orb_false_r. cbn [atSource behind] in *.
          split; [exact Hl|]. split; [apply Forall2_app; [exact HO|repeat constructor; exact Hq]|].
          split; [exact Hz|]. split; [exact Hb|]. split; [|reflexivity]. intros l. rewrite through_snoc. now destruct (hasPred s). }
      destruct Hstep as (s1 & z1 & w1 & ls1 & b1 & os1 & E1 & Hl1 & HO1 & Hz1 & Hb1 & Eos & Els).
      destruct (IH s1 z1 w1 ls1 b1 os1 Hl1 HO1 Hz1 Hb1) as (s' & z' & w' & gs' & E & Hl' & HO' & Eg & b' & Hz').
      exists s', z', w', gs'. split; [cbn [calls]; unfold xbind; now rewrite E1|]. split; [exact Hl'|].
      split; [exact HO'|]. split; [intros l; now rewrite Eg, Eos|]. exists b'. now rewrite <- Els.
  Qed.
End Panic.

(** The values among the items. *)
Definition vals {T} (l : list (item T)) : list T :=
  flat_map (fun x => match x with Val v => [v] | Bad _ => [] end) l.
Lemma vals_flat {T} (f : T -> list (item T)) (l : list (item T)) :
  vals (flat_map (onItem f) l) = flat_map (fun v => vals (f v)) (vals l).
Proof.
  induction l as [|[v|e] l IH]; [reflexivity| |exact IH].
  unfold vals in *. cbn [flat_map onItem app]. rewrite flat_map_app, IH. reflexivity.
Qed.
Lemma vals_skip {T} (l : list (item T)) : forall n, vals (skipItems n l) = skipn (Z.to_nat n) (vals l).
Proof.
  induction l as [|[v|e] l IH]; intros n; cbn [skipItems].
  - now rewrite skipn_nil.
  - change (vals (Val v :: l)) with (v :: vals l). destruct (Z.gtb_spec n 0).
    + rewrite IH. replace (Z.to_nat n) with (Datatypes.S (Z.to_nat (n - 1))) by lia. reflexivity.
    + replace (Z.to_nat n) with O by lia. reflexivity.
  - change (vals (Bad e :: ?x)) with (vals x). apply IH.
Qed.
Lemma vals_limit {T} (l : list (item T)) : forall n, vals (limitItems n l) = firstn (Z.to_nat n) (vals l).
Proof.
  induction l as [|[v|e] l IH]; intros n; cbn [limitItems].
  - now rewrite firstn_nil.
  - change (vals (Val v :: l)) with (v :: vals l). destruct (Z.gtb_spec n 0).
    + change (vals (Val v :: ?x)) with (v :: vals x). rewrite IH. replace (Z.to_nat n) with (Datatypes.S (Z.to_nat (n - 1))) by lia. reflexivity.
    + replace (Z.to_nat n) with O by lia. reflexivity.
  - change (vals (Bad e :: ?x)) with (vals x). apply IH.
Qed.
Lemma vals_through {T} (gs : list (pstage T)) : forall l,
  vals (fold_left (fun l g => papply g l) gs l) = survivors gs (vals l).
Proof.
  induction gs as [|g gs IH]; intros l; [reflexivity|]. cbn [fold_left]. rewrite IH.
  destruct g as [p|n|n|f|c]; cbn [papply survivors]; f_equal.
  - rewrite vals_flat. apply flat_map_ext. intros v. cbn [survives]. now destruct (p v) as [[]|].
  - apply vals_skip.
  - apply vals_limit.
  - rewrite vals_flat. apply flat_map_ext. intros v. cbn [survives]. now destruct (f v).
  - rewrite vals_flat. apply flat_map_ext. intros v. cbn [survives]. now destruct (c v).
Qed.

Lemma given_told {T} (l : list (item T)) : forall k, (List.length l <= k)%nat -> given (told k l) = vals l.
Proof.
  induction l as [|x l IH]; intros k Hk.
  - clear Hk. induction k as [|k IH]; [reflexivity|exact IH].
  - destruct k as [|k]; [cbn in Hk; lia|]. cbn [List.length] in Hk. destruct x as [v|e]; cbn [told].
    + unfold given, vals in *. cbn [flat_map app]. f_equal. apply IH. lia.
    + unfold given, vals in *. cbn [flat_map app]. apply IH. lia.
Qed.

Lemma flat_length {T} (f : T -> list (item T)) : (forall v, (List.length (f v) <= 1)%nat) ->
  forall l, (List.length (flat_map (onItem f) l) <= List.length l)%nat.
Proof.
  intros H. induction l as [|[v|e] l IH]; [apply le_n| |]; cbn [flat_map onItem]; rewrite app_length; cbn [List.length].
  - specialize (H v). lia.
  - lia.
Qed.
Lemma papply_length {T} (g : pstage T) l : (List.length (papply g l) <= List.length l)%nat.
Proof.
  destruct g as [p|n|n|f|c]; cbn [papply].
  - apply flat_length. intros v. now destruct (p v) as [[]|]; cbn; lia.
  - revert n. induction l as [|[v|e] l IH]; intros n; cbn [skipItems]; [lia| |].
    + destruct (n >? 0); [|lia]. specialize (IH (n - 1)). cbn [List.length]. lia.
    + specialize (IH n). cbn [List.length]. lia.
  - revert n. induction l as [|[v|e] l IH]; intros n; cbn [limitItems]; [lia| |].
    + destruct (n >? 0); [|cbn; lia]. specialize (IH (n - 1)). cbn [List.length]. lia.
    + specialize (IH n). cbn [List.length]. lia.
  - apply flat_length. intros v. destruct (f v); cbn; lia.
  - apply flat_length. intros v. destruct (c v); cbn; lia.
Qed.
Lemma items_length {T} (gs : list (pstage T)) (ls : list T) : (List.length (items gs ls) <= List.length ls)%nat.
Proof.
  unfold items. assert (H : forall hs l, (List.length (fold_left (fun l g => papply (T := T) g l) hs l) <= List.length l)%nat).
  { induction hs as [|h hs IH]; intros l; [apply le_n|]. cbn [fold_left]. specialize (IH (papply h l)). pose proof (papply_length h l). lia. }
  specialize (H (behind gs) (map Val (skipn (Z.to_nat (atSource gs)) ls))). rewrite map_length, skipn_length in H. lia.
Qed.
