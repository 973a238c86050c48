(** Slice over observed sources and callbacks. *)
From Coq Require Import Lia.
From Verif Require Import Base Arr Exn Stream_Model Stream_Spec Stream_Proofs.
Local Open Scope string_scope.
Local Open Scope list_scope.
Local Open Scope Z_scope.

Section Obs.
  Context {W O : Type} (obs : W -> O).
  Local Notation astage T := (stage T * (T -> O -> O))%type.

  (** All of [ls] through the stages: what comes out, the observation, and
      whether a Limit stopped it. *)
  Fixpoint drain {T} (us : T -> O -> O) (gs : list (astage T)) (ls : list T) (o : O) : list T * O * bool :=
    match ls with
    | [] => ([], o, false)
    | v :: ls =>
        match pass gs v (us v o) with
        | (Emit x, gs', o') => let '(r, o'', s) := drain us gs' ls o' in (x :: r, o'', s)
        | (Reject, gs', o') => drain us gs' ls o'
        | (Stop, _, o') => ([], o', true)
        end
    end.

  Lemma drain_pull {T} (us : T -> O -> O) ls : forall (gs : list (astage T)) o,
    drain us gs ls o = match pull us gs ls o with
      | Got v gs' ls' o' => let '(r, o'', s) := drain us gs' ls' o' in (v :: r, o'', s)
      | Stopped _ o' => ([], o', true)
      | Dry _ o' => ([], o', false)
      end.
  Proof.
    induction ls as [|v ls IH]; intros gs o; [reflexivity|]. cbn [drain pull].
    destruct (pass gs v (us v o)) as [[d gs'] o']. destruct d; [reflexivity|apply IH|reflexivity].
  Qed.

  Lemma drain_pipeline {T} (us : T -> O -> O) ls : forall (gs : list (astage T)) o, fst (fst (drain us gs ls o)) = pipeline (plan gs) ls.
  Proof.
    induction ls as [|v ls IH]; intros gs o; [symmetry; apply pipeline_nil|]. cbn [drain].
    pose proof (pass_pipeline gs v (us v o) ls) as HP. destruct (pass gs v (us v o)) as [[d gs'] o']. destruct d.
    - rewrite HP, <- (IH gs' o'). now destruct (drain us gs' ls o') as [[r o''] s].
    - now rewrite HP, <- (IH gs' o').
    - now rewrite HP.
  Qed.

  Section Run.
    Context {S T : Type} (us : T -> O -> O) (R : O -> O -> Prop) (src : source S W T) (D : S -> list T -> bool -> Z -> Prop).
    Hypothesis L : gdelivers obs us R src D.

    Lemma slice_drain m : forall ls opl gs z w e b hp r fuel, (List.length ls <= m)%nat ->
      D z ls e b -> Forall2 (means obs) opl gs -> (Datatypes.S (List.length ls) < fuel)%nat ->
      (e = true \/ snd (drain us gs ls (obs w)) = true) ->
      exists z' w', sliceLoop src fuel r (mkStream true opl hp, (z, w)) =
        (Ok (r ++ fst (fst (drain us gs ls (obs w)))), (mkStream false [] hp, (z', w'))) /\
        obs w' = snd (fst (drain us gs ls (obs w))).
    Proof.
      induction m as [|m IH]; intros ls opl gs z w e b hp r [|fuel] Hm HD HM Hf He; try lia.
      - destruct ls; [|cbn in Hm; lia]. cbn [drain fst snd] in *. assert (e = true) as -> by (destruct He; congruence).
        destruct (next_loop obs us R src D L [] opl gs z w true b hp (Datatypes.S fuel) HD HM ltac:(cbn; lia) (or_introl eq_refl)) as (z' & w' & E & HO).
        exists z', w'. cbn [sliceLoop]. unfold xbind at 1, Next_. unfold xbind at 1, xget. cbn [fst live]. rewrite E. rewrite app_nil_r. auto.
      - rewrite drain_pull in *.
        pose proof (next_loop obs us R src D L ls opl gs z w e b hp (Datatypes.S fuel) HD HM ltac:(lia)) as HN.
        pose proof (pull_pipeline us ls gs (obs w)) as HP.
        assert (ENx : forall st, Next_ src (Datatypes.S fuel) (mkStream true opl hp, st) = nextLoop src (Datatypes.S fuel) (mkStream true opl hp, st)) by reflexivity.
        destruct (pull us gs ls (obs w)) as [v gs' ls' o'|ls' o'|gs' o'].
        + destruct HN as (opl' & z' & w' & E & M' & D' & HO); [right; discriminate|]. destruct HP as (_ & Hl & _). subst o'.
          destruct (IH ls' opl' gs' z' w' e b hp (r ++ [v]) fuel ltac:(lia) D' M' ltac:(lia)) as (z2 & w2 & E2 & O2).
          { destruct He as [He|He]; [now left|right]. destruct (drain us gs' ls' (obs w')) as [[? ?] ?]. exact He. }
          exists z2, w2. cbn [sliceLoop]. unfold xbind at 1. rewrite ENx, E, E2.
          destruct (drain us gs' ls' (obs w')) as [[l1 o1] s1]. cbn [fst snd] in *. rewrite <- app_assoc. auto.
        + destruct HN as (z' & w' & E & _ & HO); [right; discriminate|]. exists z', w'. cbn [sliceLoop]. unfold xbind at 1. rewrite ENx, E.
          cbn [fst snd]. rewrite app_nil_r. auto.
        + cbn [snd] in He. destruct HN as (z' & w' & E & HO); [left; destruct He; congruence|]. exists z', w'. cbn [sliceLoop]. unfold xbind at 1.
          rewrite ENx, E. cbn [fst snd]. rewrite app_nil_r. auto.
    Qed.
  End Run.

  Lemma delivers_upd_g {S T} us (src : source S W T) D : delivers_upd obs us src D ->
    gdelivers obs us eq src (fun s l (e : bool) b => e = true /\ D s l b).
  Proof.
    intros [E N K]. split.
    - intros s b w [_ H]. now apply E with b.
    - intros s x l e b w [-> H]. destruct (N s x l b w H) as (s' & w' & E1 & D1 & O1). eauto 7.
    - intros s l e b n w [-> H] Hn. destruct (K s l b n w H Hn) as (k & s' & w' & E1 & D1 & O1).
      exists k, s', w'. auto.
  Qed.

  (** Builder calls on a new stream, then Slice. *)
  Lemma calls_slice {S T} us (src : source S W T) D cs ags z ls b w fuel : delivers_upd obs us src D ->
    Forall2 (astands obs) cs ags -> D z ls b -> skips (plan ags) <= b -> (Datatypes.S (List.length ls) < fuel)%nat ->
    exists s' z' w', xbind (calls src cs) (fun _ => Slice src fuel) (New, (z, w)) = (Ok (pipeline (plan ags) ls), (s', (z', w'))) /\
      obs w' = snd (fst (drain us (eff false ags) (skipn (Z.to_nat (direct false ags)) ls) (obs w))).
  Proof.
    intros L HS HD Hb Hf. pose proof (delivers_upd_g us src D L) as L'.
    destruct (calls_ok obs us eq src _ L' (@eq_refl O) (@eq_trans O) cs ags HS [] [] false z ls true b w (conj eq_refl HD) Hb
      (Forall2_nil _) (fun _ => Forall_nil _)) as (opl & hp & z1 & w1 & E1 & M1 & D1 & O1 & _ & EP).
    destruct (slice_drain us eq src _ L' _ (skipn (Z.to_nat (direct false ags)) ls) opl ([] ++ eff false ags) z1 w1 true _ hp [] fuel (le_n _) D1 M1)
      as (z2 & w2 & E2 & O2).
    { rewrite skipn_length. lia. } { now left. }
    exists (mkStream false [] hp), z2, w2. unfold xbind. unfold New at 1. rewrite E1. unfold Slice. rewrite E2.
    rewrite drain_pipeline. cbn [app] in *. rewrite EP, <- O1 in *. auto.
  Qed.

  (** ** Pure facts about the stages *)
  Lemma pass_app {T} (A B : list (astage T)) : forall v o, pass (A ++ B) v o =
    match pass A v o with
    | (Emit x, A', o') => let '(d, B', o'') := pass B x o' in (d, A' ++ B', o'')
    | (Reject, A', o') => (Reject, A' ++ B, o')
    | (Stop, A', o') => (Stop, A' ++ B, o')
    end.
  Proof.
    induction A as [|[g u] A IH]; intros v o; cbn [app pass]; [now destruct (pass B v o) as [[d B'] o'']|].
    destruct g as [p|n|n|f|].
    - destruct (p v); [|reflexivity]. rewrite IH. destruct (pass A v (u v o)) as [[d A'] o']. destruct d; try reflexivity.
      now destruct (pass B v0 o') as [[d B'] o''].
    - destruct (n >? 0); [reflexivity|]. rewrite IH. destruct (pass A v o) as [[d A'] o']. destruct d; try reflexivity.
      now destruct (pass B v0 o') as [[d B'] o''].
    - destruct (n >? 0); [|reflexivity]. rewrite IH. destruct (pass A v o) as [[d A'] o']. destruct d; try reflexivity.
      now destruct (pass B v0 o') as [[d B'] o''].
    - rewrite IH. destruct (pass A (f v) (u v o)) as [[d A'] o']. destruct d; try reflexivity.
      now destruct (pass B v0 o') as [[d B'] o''].
    - rewrite IH. destruct (pass A v (u v o)) as [[d A'] o']. destruct d; try reflexivity.
      now destruct (pass B v0 o') as [[d B'] o''].
  Qed.

  Definition hush {T} (g : stage T) : astage T := (g, fun _ o => o).
  Lemma pass_hush {T} (gs : list (stage T)) : forall v o, exists d gs', pass (map hush gs) v o = (d, map hush gs', o) /\
    (Forall noLimit gs -> d <> Stop /\ Forall noLimit gs').
  Proof.
    induction gs as [|g gs IH]; intros v o; [exists (Emit v), []; split; [reflexivity|split; [discriminate|constructor]]|].
    cbn [map]. change (hush g) with (g, fun (_ : T) (o : O) => o). cbn [pass].
    destruct g as [p|n|n|f|].
    - destruct (p v).
      + destruct (IH v o) as (d & gs' & -> & HL). exists d, (SFilter p :: gs'). split; [reflexivity|].
        intros H. inversion H; subst. destruct (HL H3). split; auto.
      + exists Reject, (SFilter p :: gs). split; [reflexivity|]. intros H. inversion H; subst. split; [discriminate|]. auto.
    - destruct (n >? 0).
      + exists Reject, (SSkip (n - 1) :: gs). split; [reflexivity|]. intros H. inversion H; subst. split; [discriminate|]. auto.
      + destruct (IH v o) as (d & gs' & -> & HL). exists d, (SSkip n :: gs'). split; [reflexivity|].
        intros H. inversion H; subst. destruct (HL H3). split; auto.
    - destruct (n >? 0).
      + destruct (IH v o) as (d & gs' & -> & HL). exists d, (SLimit (n - 1) :: gs'). split; [reflexivity|].
        intros H. inversion H; subst. contradiction.
      + exists Stop, (SLimit n :: gs). split; [reflexivity|]. intros H. inversion H; subst. contradiction.
    - destruct (IH (f v) o) as (d & gs' & -> & HL). exists d, (SMap f :: gs'). split; [reflexivity|].
      intros H. inversion H; subst. destruct (HL H3). split; auto.
    - destruct (IH v o) as (d & gs' & -> & HL). exists d, (SPeek :: gs'). split; [reflexivity|].
      intros H. inversion H; subst. destruct (HL H3). split; auto.
  Qed.
  Lemma plan_hush {T} (gs : list (stage T)) : plan (map hush gs) = gs.
  Proof. unfold plan. rewrite map_map. apply map_id. Qed.
  Lemma stands_hush {T} (cs : list (build W T)) gs : Forall2 (stands obs) cs gs -> Forall2 (astands obs) cs (map hush gs).
  Proof. induction 1 as [|c g cs gs H HF IH]; cbn; constructor; auto. inversion H; subst; now constructor. Qed.

  (** Does a stage select, after [hp]? *)
  Definition after {T} (hp : bool) (gs : list (stage T)) : bool := hp || existsb selects gs.
  Lemma eff_app {T} (A B : list (astage T)) : forall hp, eff hp (A ++ B) = eff hp A ++ eff (after hp (plan A)) B.
  Proof.
    induction A as [|[g u] A IH]; intros hp; cbn [app eff plan map fst]; unfold after; [now rewrite orb_false_r|].
    cbn [existsb]. destruct g; cbn [selects orb]; rewrite ?IH; unfold after; rewrite ?orb_true_r; try reflexivity.
    destruct ((n =? 0) || negb hp); reflexivity.
  Qed.
  Lemma direct_app {T} (A B : list (astage T)) : forall hp, direct hp (A ++ B) = direct hp A + direct (after hp (plan A)) B.
  Proof.
    induction A as [|[g u] A IH]; intros hp; cbn [app direct plan map fst]; unfold after; [now rewrite orb_false_r|].
    cbn [existsb]. destruct g; cbn [selects orb]; rewrite ?IH; unfold after; rewrite ?orb_true_r; try reflexivity.
    destruct (negb hp); [apply Z.add_assoc|reflexivity].
  Qed.
  Lemma direct_true {T} (A : list (astage T)) : direct true A = 0.
  Proof. induction A as [|[g u] A IH]; [reflexivity|]. destruct g; exact IH. Qed.
  Lemma direct_noSkip {T} (A : list (astage T)) : Forall noSkip (plan A) -> forall hp, direct hp A = 0.
  Proof.
    induction A as [|[g u] A IH]; intros H hp; [reflexivity|]. cbn [plan map fst] in H. inversion H; subst.
    destruct g; cbn [direct]; auto. contradiction.
  Qed.
  Lemma eff_hush {T} (gs : list (stage T)) : forall hp, exists gs', eff hp (map hush gs) = map hush gs' /\ (Forall noLimit gs -> Forall noLimit gs').
  Proof.
    induction gs as [|g gs IH]; intros hp; [exists []; auto|]. cbn [map]. change (hush g) with (g, fun (_ : T) (o : O) => o).
    destruct g; cbn [eff].
    - destruct (IH true) as (gs' & -> & H). exists (SFilter p :: gs'). split; [reflexivity|]. intros HL. inversion HL; subst. auto.
    - destruct (IH hp) as (gs' & -> & H). destruct ((n =? 0) || negb hp).
      + exists gs'. split; [reflexivity|]. intros HL. inversion HL; subst. auto.
      + exists (SSkip n :: gs'). split; [reflexivity|]. intros HL. inversion HL; subst. auto.
    - destruct (IH true) as (gs' & -> & H). exists (SLimit n :: gs'). split; [reflexivity|]. intros HL. inversion HL; subst. auto.
    - destruct (IH hp) as (gs' & -> & H). exists (SMap f :: gs'). split; [reflexivity|]. intros HL. inversion HL; subst. auto.
    - destruct (IH hp) as (gs' & -> & H). exists (SPeek :: gs'). split; [reflexivity|]. intros HL. inversion HL; subst. auto.
  Qed.

  Lemma eff_pipeline {T} (ags : list (astage T)) : Forall nonneg (plan ags) -> forall gs hp ls, (hp = false -> Forall plain gs) ->
    pipeline (plan (eff hp ags)) (pipeline gs (skipn (Z.to_nat (direct hp ags)) ls)) = pipeline (plan ags) (pipeline gs ls).
  Proof.
    induction ags as [|[g u] ags IH]; intros HN gs hp ls HP; [reflexivity|]. cbn [plan map fst] in HN. inversion HN as [|? ? Hg HN']; subst.
    specialize (IH HN').
    assert (IH' : forall hp' g', (hp' = false -> Forall plain (gs ++ [g'])) ->
      pipeline (plan (eff hp' ags)) (apply g' (pipeline gs (skipn (Z.to_nat (direct hp' ags)) ls))) = pipeline (plan ags) (apply g' (pipeline gs ls))).
    { intros hp' g' Hpl. specialize (IH (gs ++ [g']) hp' ls Hpl). now rewrite !pipeline_app in IH. }
    destruct g as [p|n|n|f|]; cbn [eff direct].
    - cbn [plan map fst]. rewrite !pipeline_cons. apply IH'. discriminate.
    - cbn in Hg. destruct hp; cbn [negb orb].
      + rewrite orb_false_r. destruct (n =? 0) eqn:E.
        * apply Z.eqb_eq in E as ->. cbn [plan map fst]. rewrite pipeline_cons. cbn [apply Z.to_nat skipn]. apply IH. discriminate.
        * cbn [plan map fst]. rewrite !pipeline_cons. apply IH'. discriminate.
      + rewrite orb_true_r. cbn [plan map fst]. rewrite pipeline_cons. cbn [apply].
        rewrite <- plain_skip by auto. rewrite <- (IH gs false) by exact HP. f_equal. f_equal. rewrite skipn_add. f_equal.
        pose proof (direct_range ags HN' false). lia.
    - cbn [plan map fst]. rewrite !pipeline_cons. apply IH'. discriminate.
    - cbn [plan map fst]. rewrite !pipeline_cons. apply IH'. intros H. apply Forall_app. split; [auto|]. repeat constructor.
    - cbn [plan map fst]. rewrite !pipeline_cons. apply IH'. intros H. apply Forall_app. split; [auto|]. repeat constructor.
  Qed.
End Obs.

(** ** Peek *)
Section Peek.
  Context {W T : Type} (seen : W -> list T).
  Definition sees : stage T * (T -> list T -> list T) := (SPeek, fun v l => l ++ [v]).

  Lemma drain_peek ls : forall (pre post : list (stage T)) o,
    exists r, pipeline pre ls = r ++ skipn (List.length r) (pipeline pre ls) /\
      snd (fst (drain (fun _ o => o) (map hush pre ++ sees :: map hush post) ls o)) = o ++ r /\
      (Forall noLimit post -> r = pipeline pre ls).
  Proof.
    induction ls as [|v ls IH]; intros pre post o.
    { exists []. rewrite pipeline_nil. cbn. rewrite app_nil_r. auto. }
    cbn [drain]. rewrite pass_app. pose proof (pass_pipeline (map hush pre) v o ls) as HP.
    destruct (pass_hush pre v o) as (d & pre' & E & _). rewrite E in HP |- *. rewrite !plan_hush in HP. destruct d as [x| |].
    - cbn [pass sees]. destruct (pass_hush post x (o ++ [x])) as (d & post' & -> & HL).
      assert (EQ : snd (fst (match d with
         | Emit x0 => let '(r, o'', s) := drain (fun _ o => o) (map hush pre' ++ sees :: map hush post') ls (o ++ [x]) in (x0 :: r, o'', s)
         | Reject => drain (fun _ o => o) (map hush pre' ++ sees :: map hush post') ls (o ++ [x])
         | Stop => ([], o ++ [x], true) end)) = match d with Stop => o ++ [x]
         | _ => snd (fst (drain (fun _ o => o) (map hush pre' ++ sees :: map hush post') ls (o ++ [x]))) end).
      { destruct d; [|reflexivity..]. now destruct (drain _ _ ls (o ++ [x])) as [[? ?] ?]. }
      fold sees. rewrite EQ. rewrite HP. destruct (IH pre' post' (o ++ [x])) as (r & E1 & E2 & E3). destruct d.
      + exists (x :: r). cbn [List.length skipn app]. rewrite E2, <- app_assoc. split; [now f_equal|]. split; [reflexivity|].
        intros H. destruct (HL H). now rewrite E3.
      + exists (x :: r). cbn [List.length skipn app]. rewrite E2, <- app_assoc. split; [now f_equal|]. split; [reflexivity|].
        intros H. destruct (HL H). now rewrite E3.
      + exists [x]. cbn [List.length skipn app]. split; [reflexivity|]. split; [reflexivity|]. intros H. destruct (HL H). congruence.
    - rewrite HP. apply IH.
    - rewrite HP. exists []. cbn. rewrite app_nil_r. auto.
  Qed.

  Lemma peek_ok {S} (src : source S W T) D cpre pre c cpost post z ls b w fuel : delivers seen src D ->
    Forall2 (stands seen) cpre pre -> answers_upd seen c (fun _ => tt) (fun v l => l ++ [v]) -> Forall2 (stands seen) cpost post ->
    D z ls b -> skips (pre ++ post) <= b -> (Datatypes.S (List.length ls) < fuel)%nat ->
    Forall noSkip post \/ existsb selects pre = true ->
    exists s' z' w' r, xbind (calls src (cpre ++ BPeek c :: cpost)) (fun _ => Slice src fuel) (New, (z, w)) =
        (Ok (pipeline (pre ++ post) ls), (s', (z', w'))) /\
      seen w' = seen w ++ r /\ (exists q, pipeline pre ls = r ++ q) /\ (Forall noLimit post -> r = pipeline pre ls).
  Proof.
    intros L Hpre Hc Hpost HD Hb Hf Hg.
    assert (L' : delivers_upd seen (fun _ o => o) src D) by (destruct L as [X1 X2 X3]; split; assumption).
    set (ags := map hush pre ++ sees :: map hush post).
    assert (HS : Forall2 (astands seen) (cpre ++ BPeek c :: cpost) ags).
    { apply Forall2_app; [now apply stands_hush|]. constructor; [|now apply stands_hush]. now constructor. }
    assert (EPl : plan ags = pre ++ SPeek :: post).
    { unfold ags, plan. rewrite map_app. cbn [map]. fold (plan (map (@hush (list T) T) pre)). fold (plan (map (@hush (list T) T) post)).
      now rewrite !plan_hush. }
    assert (EPp : pipeline (plan ags) ls = pipeline (pre ++ post) ls) by (rewrite EPl, !pipeline_app; reflexivity).
    assert (HSk : skips (plan ags) <= b).
    { rewrite EPl. replace (skips (pre ++ SPeek :: post)) with (skips (pre ++ post)); [exact Hb|]. clear.
      induction pre as [|g pre IH]; [reflexivity|]. destruct g; cbn [app skips]; rewrite ?IH; reflexivity. }
    destruct (calls_slice seen _ src D _ ags z ls b w fuel L' HS HD HSk Hf) as (s' & z' & w' & E & HO).
    assert (Edir : direct false ags = direct false (map (@hush (list T) T) pre)).
    { unfold ags. rewrite direct_app, plan_hush. cbn [direct sees]. destruct Hg as [Hg|Hg].
      - rewrite (direct_noSkip (map hush post)) by (now rewrite plan_hush). lia.
      - unfold after. rewrite Hg. cbn [orb]. rewrite direct_true. lia. }
    assert (Eeff : exists post', eff false ags = eff false (map hush pre) ++ sees :: map hush post' /\ (Forall noLimit post -> Forall noLimit post')).
    { unfold ags. rewrite eff_app. cbn [eff sees]. destruct (eff_hush (O := list T) post (after false (plan (map (@hush (list T) T) pre)))) as (post' & -> & HL). eauto. }
    destruct Eeff as (post' & Eeff & HL). destruct (eff_hush (O := list T) pre false) as (pre' & Epre & _). rewrite Epre in Eeff.
    destruct (drain_peek (skipn (Z.to_nat (direct false ags)) ls) pre' post' (seen w)) as (r & E1 & E2 & E3).
    assert (EQ : pipeline pre' (skipn (Z.to_nat (direct false ags)) ls) = pipeline pre ls).
    { rewrite Edir. pose proof (astands_nonneg seen _ _ (stands_hush seen _ _ Hpre)) as HNN.
      pose proof (eff_pipeline _ HNN [] false ls (fun _ => Forall_nil _)) as HE. rewrite Epre, !plan_hush in HE. exact HE. }
    exists s', z', w', r. rewrite <- EPp. split; [exact E|]. rewrite HO, Eeff, E2. split; [reflexivity|].
    rewrite EQ in E1, E3. split; [eauto|]. intros H. apply E3. auto.
  Qed.
End Peek.

(** ** Limit over a source without end *)
Section Limit.
  Context {W T : Type} (pulls : W -> nat).

  Lemma drain_limit ls : forall (gs : list (stage T)) n o,
    0 <= n -> Z.of_nat (List.length (pipeline gs ls)) > n ->
    (forall a b, ls = a ++ b -> b <> [] -> Z.of_nat (List.length (pipeline gs a)) <= n) ->
    snd (drain (fun _ => S) (map hush gs ++ [hush (SLimit n)]) ls o) = true /\
    snd (fst (drain (fun _ => S) (map hush gs ++ [hush (SLimit n)]) ls o)) = (List.length ls + o)%nat.
  Proof.
    induction ls as [|v ls IH]; intros gs n o Hn Hlen Hmin; [rewrite pipeline_nil in Hlen; cbn in Hlen; lia|].
    cbn [drain]. rewrite pass_app.
    destruct (pass_hush gs v (S o)) as (d & gs' & E & _).
    assert (HP : forall l, match d with
      | Emit x => pipeline gs (v :: l) = x :: pipeline gs' l
      | Reject => pipeline gs (v :: l) = pipeline gs' l
      | Stop => pipeline gs (v :: l) = [] end).
    { intros l. pose proof (pass_pipeline (map hush gs) v (S o) l) as HP. rewrite E, !plan_hush in HP. exact HP. }
    rewrite E. destruct d as [x| |].
    - cbn [pass hush]. destruct (n >? 0) eqn:En.
      + destruct (IH gs' (n - 1) (S o)) as [E1 E2].
        * lia.
        * rewrite HP in Hlen. cbn [List.length] in Hlen. lia.
        * intros a b Hab Hb. specialize (Hmin (v :: a) b ltac:(now rewrite Hab) Hb). rewrite HP in Hmin. cbn [List.length] in Hmin. lia.
        * change (map hush gs' ++ [(SLimit (n - 1), fun (_ : T) (o0 : nat) => o0)]) with (map hush gs' ++ [@hush nat T (SLimit (n - 1))]).
          destruct (drain _ _ ls (S o)) as [[r o''] s] in *. cbn [fst snd] in *. split; [exact E1|]. cbn [List.length]. lia.
      + cbn [fst snd]. split; [reflexivity|]. destruct ls as [|y ls]; [reflexivity|].
        specialize (Hmin [v] (y :: ls) eq_refl ltac:(discriminate)). rewrite HP in Hmin. cbn [List.length] in Hmin. lia.
    - destruct (IH gs' n (S o)) as [E1 E2].
      + lia.
      + now rewrite HP in Hlen.
      + intros a b Hab Hb. specialize (Hmin (v :: a) b ltac:(now rewrite Hab) Hb). now rewrite HP in Hmin.
      + split; [exact E1|]. rewrite E2. cbn [List.length]. lia.
    - rewrite HP in Hlen. cbn in Hlen. lia.
  Qed.

  Lemma counted_g {S} (src : source S W T) P f : counted pulls src P f ->
    gdelivers pulls (fun _ => Datatypes.S) eq src (fun z l e b => e = false /\ b = 0 /\ exists k, P z k /\ l = prefix f k (List.length l)).
  Proof.
    intros H. split.
    - intros s b w [He _]. discriminate.
    - intros s x l e b w (-> & -> & k & HP & E). unfold prefix in E. cbn [List.length seq map] in E. injection E as -> E.
      destruct (H s k w HP) as (z' & w' & E1 & P1 & O1). exists z', w'. split; [exact E1|]. split; [|exact O1].
      split; [reflexivity|]. split; [reflexivity|]. exists (Datatypes.S k). auto.
    - intros s l e b n w (-> & -> & _) Hn. lia.
  Qed.

  Lemma noSkip_skips (gs : list (stage T)) : Forall noSkip gs -> skips gs = 0.
  Proof. induction 1 as [|g gs Hg H IH]; [reflexivity|]. destruct g; cbn in *; auto. contradiction. Qed.
  Lemma noSkip_eff {O} (gs : list (stage T * (T -> O -> O))) : Forall noSkip (plan gs) -> forall hp, eff hp gs = gs.
  Proof.
    induction gs as [|[g u] gs IH]; intros H hp; [reflexivity|]. cbn [plan map fst] in H. inversion H; subst.
    destruct g; cbn [eff]; rewrite ?IH by assumption; try reflexivity. contradiction.
  Qed.

  Lemma limit_ok {S} (src : source S W T) P f cs gs n m k z w fuel : counted pulls src P f ->
    Forall2 (stands pulls) cs gs -> Forall noSkip gs -> 0 <= n -> P z k ->
    Z.of_nat (List.length (pipeline gs (prefix f k m))) > n ->
    (forall j, (j < m)%nat -> Z.of_nat (List.length (pipeline gs (prefix f k j))) <= n) ->
    (Datatypes.S m < fuel)%nat ->
    exists s' z' w', xbind (calls src (cs ++ [BLimit n])) (fun _ => Slice src fuel) (New, (z, w)) =
        (Ok (firstn (Z.to_nat n) (pipeline gs (prefix f k m))), (s', (z', w'))) /\
      pulls w' = (m + pulls w)%nat.
  Proof.
    intros HC HS HNS Hn HP Hlen Hmin Hf. pose proof (counted_g src P f HC) as L.
    set (ags := map hush gs ++ [@hush nat T (SLimit n)]).
    assert (EPl : plan ags = gs ++ [SLimit n]).
    { unfold ags, plan. rewrite map_app. fold (plan (map (@hush nat T) gs)). now rewrite plan_hush. }
    assert (HA : Forall2 (astands pulls) (cs ++ [BLimit n]) ags).
    { apply Forall2_app; [now apply stands_hush|]. repeat constructor. exact Hn. }
    assert (HNS' : Forall noSkip (plan ags)) by (rewrite EPl; apply Forall_app; split; [exact HNS|repeat constructor]).
    assert (Hpl : List.length (prefix f k m) = m) by (unfold prefix; now rewrite map_length, seq_length).
    destruct (calls_ok pulls _ eq src _ L (@eq_refl nat) (@eq_trans nat) _ ags HA [] [] false z (prefix f k m) false 0 w) as (opl & hp & z1 & w1 & E1 & M1 & D1 & O1 & _ & EP).
    { split; [reflexivity|]. split; [reflexivity|]. exists k. now rewrite Hpl. }
    { rewrite noSkip_skips by assumption. lia. } { constructor. } { constructor. }
    rewrite (direct_noSkip ags HNS') in *. cbn [Z.to_nat skipn app] in *. rewrite (noSkip_eff ags HNS') in *.
    destruct (drain_limit (prefix f k m) gs n (pulls w1) Hn Hlen) as [Hs Ho].
    { intros a b Hab Hb. assert (Ha : a = prefix f k (List.length a)).
      { assert (HL : (List.length a <= m)%nat) by (rewrite <- Hpl, Hab, app_length; lia).
        assert (HF : a = firstn (List.length a) (prefix f k m)) by (rewrite Hab, firstn_app, Nat.sub_diag, firstn_all; cbn; now rewrite app_nil_r).
        rewrite HF at 1. unfold prefix. rewrite firstn_map. f_equal. revert HL. generalize (List.length a) as j. clear. intros j. revert k m.
        induction j as [|j IH]; intros k [|m] H; cbn; try reflexivity; [lia|]. f_equal. apply IH. lia. }
      rewrite Ha. apply Hmin. rewrite <- Hpl, Hab, app_length. destruct b; [congruence|]. cbn. lia. }
    destruct (slice_drain pulls _ eq src _ L _ (prefix f k m) opl ags z1 w1 false _ hp [] fuel (le_n _) D1 M1) as (z2 & w2 & E2 & O2).
    { lia. } { now right. }
    exists (mkStream false [] hp), z2, w2. unfold xbind. unfold New at 1. rewrite E1. unfold Slice. rewrite E2.
    rewrite drain_pipeline. unfold ags in O2. rewrite Ho in O2. rewrite EPl, pipeline_app. cbn [app]. split; [reflexivity|].
    rewrite O2, Hpl. now rewrite O1.
  Qed.
End Limit.
