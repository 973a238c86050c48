(** Proofs about stream: pipelines of annotated stages over delivering sources. *)
From Coq Require Import Lia.
From Verif Require Import Base Arr Exn Stream_Model Stream_Spec.
Local Open Scope string_scope.
Local Open Scope list_scope.
Local Open Scope Z_scope.

(** ** Lists *)
Section Lists.
  Context {T : Type}.

  Lemma pipeline_app (gs gs' : list (stage T)) l : pipeline (gs ++ gs') l = pipeline gs' (pipeline gs l).
  Proof. unfold pipeline. apply fold_left_app. Qed.
  Lemma pipeline_cons g (gs : list (stage T)) l : pipeline (g :: gs) l = pipeline gs (apply g l).
  Proof. reflexivity. Qed.
  Lemma pipeline_nil (gs : list (stage T)) : pipeline gs [] = [].
  Proof.
    induction gs as [|g gs IH]; [reflexivity|]. rewrite pipeline_cons.
    replace (apply g []) with (@nil T); [exact IH|].
    destruct g; cbn; [reflexivity| now rewrite skipn_nil | now rewrite firstn_nil |reflexivity..].
  Qed.
  Lemma apply_length g (l : list T) : (List.length (apply g l) <= List.length l)%nat.
  Proof.
    destruct g; cbn.
    - induction l as [|x l IH]; cbn; [lia|]. destruct (p x); cbn; lia.
    - rewrite skipn_length. lia.
    - rewrite firstn_length. lia.
    - now rewrite map_length.
    - lia.
  Qed.
  Lemma pipeline_length gs : forall l : list T, (List.length (pipeline gs l) <= List.length l)%nat.
  Proof.
    induction gs as [|g gs IH]; intros l; [apply le_n|]. rewrite pipeline_cons. pose proof (apply_length g l). specialize (IH (apply g l)). lia.
  Qed.

  (** Stages that keep every element: Skip commutes with them. *)
  Definition plain (g : stage T) : Prop := match g with SMap _ | SPeek => True | _ => False end.
  Lemma plain_skip gs n : Forall plain gs -> forall l : list T, pipeline gs (skipn n l) = skipn n (pipeline gs l).
  Proof.
    induction 1 as [|g gs Hg H IH]; intros l; [reflexivity|]. rewrite !pipeline_cons, <- IH. f_equal.
    destruct g; try contradiction; cbn; [|reflexivity]. now rewrite skipn_map.
  Qed.
End Lists.

Section Obs.
  Context {W O : Type} (obs : W -> O).

  (** A stage with what it does to the observed part of the world. *)
  Local Notation astage T := (stage T * (T -> O -> O))%type.
  Definition plan {T} (gs : list (astage T)) : list (stage T) := map fst gs.

  Inductive means {T} : op W T -> astage T -> Prop :=
  | me_map f g u : answers_upd obs f g u -> means (OMap f) (SMap g, u)
  | me_filter p q u : answers_upd obs p q u -> means (OPred p) (SFilter q, u)
  | me_skip n u : means (OSkip n) (SSkip n, u)
  | me_limit n u : means (OLimit n) (SLimit n, u)
  | me_peek c u : answers_upd obs c (fun _ => tt) u -> means (OPeek c) (SPeek, u).

  (** One element through the stages. *)
  Fixpoint pass {T} (gs : list (astage T)) (v : T) (o : O) : verdict T * list (astage T) * O :=
    match gs with
    | [] => (Emit v, [], o)
    | (g, u) :: r =>
        match g with
        | SFilter p =>
            if p v then let '(d, r', o') := pass r v (u v o) in (d, (g, u) :: r', o')
            else (Reject, gs, u v o)
        | SSkip n =>
            if n >? 0 then (Reject, (SSkip (n - 1), u) :: r, o)
            else let '(d, r', o') := pass r v o in (d, (g, u) :: r', o')
        | SLimit n =>
            if n >? 0 then let '(d, r', o') := pass r v o in (d, (SLimit (n - 1), u) :: r', o')
            else (Stop, gs, o)
        | SMap f => let '(d, r', o') := pass r (f v) (u v o) in (d, (g, u) :: r', o')
        | SPeek => let '(d, r', o') := pass r v (u v o) in (d, (g, u) :: r', o')
        end
    end.

  Lemma pass_pipeline {T} (gs : list (astage T)) : forall v o l,
    match pass gs v o with
    | (Emit v', gs', _) => pipeline (plan gs) (v :: l) = v' :: pipeline (plan gs') l
    | (Reject, gs', _) => pipeline (plan gs) (v :: l) = pipeline (plan gs') l
    | (Stop, _, _) => pipeline (plan gs) (v :: l) = []
    end.
  Proof.
    induction gs as [|[g u] r IH]; intros v o l; [reflexivity|].
    assert (HN : forall n, (n >? 0) = true -> Z.to_nat n = S (Z.to_nat (n - 1))) by (intros; lia).
    destruct g as [p|n|n|f|]; cbn [pass].
    - destruct (p v) eqn:E.
      + specialize (IH v (u v o) (filter p l)). destruct (pass r v (u v o)) as [[[v'| |] r'] o']; cbn [plan map fst] in *;
          rewrite !pipeline_cons; cbn [apply filter]; rewrite E; exact IH.
      + cbn [plan map fst]. rewrite !pipeline_cons. cbn [apply filter]. now rewrite E.
    - destruct (n >? 0) eqn:E.
      + cbn [plan map fst]. rewrite !pipeline_cons. cbn [apply]. now rewrite (HN _ E).
      + assert (En : Z.to_nat n = 0%nat) by lia. specialize (IH v o l).
        destruct (pass r v o) as [[[v'| |] r'] o']; cbn [plan map fst] in *; rewrite !pipeline_cons; cbn [apply]; rewrite En; exact IH.
    - destruct (n >? 0) eqn:E.
      + specialize (IH v o (firstn (Z.to_nat (n - 1)) l)).
        destruct (pass r v o) as [[[v'| |] r'] o']; cbn [plan map fst] in *; rewrite !pipeline_cons; cbn [apply];
          rewrite (HN _ E); exact IH.
      + assert (En : Z.to_nat n = 0%nat) by lia. cbn [plan map fst]. rewrite pipeline_cons. cbn [apply]. rewrite En. apply pipeline_nil.
    - specialize (IH (f v) (u v o) (map f l)). destruct (pass r (f v) (u v o)) as [[[v'| |] r'] o']; cbn [plan map fst] in *;
        rewrite !pipeline_cons; exact IH.
    - specialize (IH v (u v o) l). destruct (pass r v (u v o)) as [[[v'| |] r'] o']; cbn [plan map fst] in *;
        rewrite !pipeline_cons; exact IH.
  Qed.

  Lemma pass_plain {T} (gs : list (astage T)) : forall v o d gs' o', pass gs v o = (d, gs', o') ->
    Forall plain (plan gs) -> Forall plain (plan gs').
  Proof.
    induction gs as [|[g u] r IH]; intros v o d gs' o' E HP; cbn in E; [now injection E as <- <- <-|].
    cbn in HP. inversion HP as [|? ? Hg Hr]; subst. destruct g as [p|n|n|f|]; try contradiction.
    - destruct (pass r (f v) (u v o)) as [[d1 r1] o1] eqn:E1. injection E as <- <- <-. constructor; [exact I|]. eapply IH; eassumption.
    - destruct (pass r v (u v o)) as [[d1 r1] o1] eqn:E1. injection E as <- <- <-. constructor; [exact I|]. eapply IH; eassumption.
  Qed.

  (** The model's loop over the ops does the same. *)
  Lemma stages_pass {T} (todo : list (op W T)) gs : Forall2 means todo gs -> forall done v w,
    exists ops' w', stages done todo v (done ++ todo, w) = (Ok (fst (fst (pass gs v (obs w)))), (done ++ ops', w')) /\
      Forall2 means ops' (snd (fst (pass gs v (obs w)))) /\ obs w' = snd (pass gs v (obs w)).
  Proof.
    induction 1 as [|o [g u] rest r Hm Hr IH]; intros done v w.
    - exists [], w. repeat split. constructor.
    - cbn [stages pass]. inversion Hm; subst; clear Hm.
      + match goal with H : answers_upd _ _ _ _ |- _ => destruct (H v w) as (w1 & E1 & O1) end.
        unfold xbind, onWorld. rewrite E1. cbn [fst snd].
        specialize (IH (done ++ [OMap f]) (g0 v) w1). rewrite <- app_assoc in IH. cbn [app] in IH. rewrite O1 in IH.
        destruct IH as (ops' & w' & E & HF & HO). exists (OMap f :: ops'), w'.
        destruct (pass r (g0 v) (u v (obs w))) as [[d r'] o'] eqn:EP. cbn [fst snd] in *.
        rewrite <- app_assoc in E. split; [exact E|]. split; [|exact HO]. constructor; [now constructor|assumption].
      + match goal with H : answers_upd _ _ _ _ |- _ => destruct (H v w) as (w1 & E1 & O1) end.
        unfold xbind, onWorld. rewrite E1. cbn [fst snd]. destruct (q v).
        * specialize (IH (done ++ [OPred p]) v w1). rewrite <- app_assoc in IH. cbn [app] in IH. rewrite O1 in IH.
          destruct IH as (ops' & w' & E & HF & HO). exists (OPred p :: ops'), w'.
          destruct (pass r v (u v (obs w))) as [[d r'] o'] eqn:EP. cbn [fst snd] in *.
          rewrite <- app_assoc in E. split; [exact E|]. split; [|exact HO]. constructor; [now constructor|assumption].
        * exists (OPred p :: rest), w1. cbn [fst snd]. split; [reflexivity|]. split; [|exact O1].
          constructor; [now constructor|assumption].
      + destruct (n >? 0).
        * unfold xbind, xget, xput, xret. cbn [fst snd]. exists (OSkip (n - 1) :: rest), w. split; [reflexivity|].
          split; [|reflexivity]. constructor; [now constructor|assumption].
        * specialize (IH (done ++ [OSkip n]) v w). rewrite <- app_assoc in IH. cbn [app] in IH.
          destruct IH as (ops' & w' & E & HF & HO). exists (OSkip n :: ops'), w'.
          destruct (pass r v (obs w)) as [[d r'] o'] eqn:EP. cbn [fst snd] in *.
          rewrite <- app_assoc in E. split; [exact E|]. split; [|exact HO]. constructor; [now constructor|assumption].
      + destruct (n >? 0).
        * unfold xbind, xget, xput. cbn [fst snd].
          specialize (IH (done ++ [OLimit (n - 1)]) v w). rewrite <- app_assoc in IH. cbn [app] in IH.
          destruct IH as (ops' & w' & E & HF & HO). exists (OLimit (n - 1) :: ops'), w'.
          destruct (pass r v (obs w)) as [[d r'] o'] eqn:EP. cbn [fst snd] in *.
          rewrite <- app_assoc in E. split; [exact E|]. split; [|exact HO]. constructor; [now constructor|assumption].
        * exists (OLimit n :: rest), w. cbn [fst snd]. split; [reflexivity|]. split; [|reflexivity].
          constructor; [now constructor|assumption].
      + match goal with H : answers_upd _ _ _ _ |- _ => destruct (H v w) as (w1 & E1 & O1) end.
        unfold xbind, onWorld. rewrite E1. cbn [fst snd].
        specialize (IH (done ++ [OPeek c]) v w1). rewrite <- app_assoc in IH. cbn [app] in IH. rewrite O1 in IH.
        destruct IH as (ops' & w' & E & HF & HO). exists (OPeek c :: ops'), w'.
        destruct (pass r v (u v (obs w))) as [[d r'] o'] eqn:EP. cbn [fst snd] in *.
        rewrite <- app_assoc in E. split; [exact E|]. split; [|exact HO]. constructor; [now constructor|assumption].
  Qed.

  (** ** Sources, in general: [D s l e b] says that [l] are the next elements;
      with [e] these are all.  A pull changes the observation by [us], a Skip
      by [R] at most. *)
  Record gdelivers {S T} (us : T -> O -> O) (R : O -> O -> Prop) (src : source S W T)
      (D : S -> list T -> bool -> Z -> Prop) : Prop := {
    gd_end : forall s b w, D s [] true b -> exists s' w', sNext src (s, w) = (Ok None, (s', w')) /\ obs w' = obs w;
    gd_next : forall s x l e b w, D s (x :: l) e b ->
      exists s' w', sNext src (s, w) = (Ok (Some x), (s', w')) /\ D s' l e b /\ obs w' = us x (obs w);
    gd_skip : forall s l e b n w, D s l e b -> 0 < n <= b ->
      exists k s' w', sSkip src n (s, w) = (Ok k, (s', w')) /\ D s' (skipn (Z.to_nat n) l) e (b - n) /\ R (obs w) (obs w') }.

  Lemma delivers_gdelivers {S T} (src : source S W T) D : delivers obs src D ->
    gdelivers (fun _ o => o) eq src (fun s l (e : bool) b => e = true /\ D s l b).
  Proof.
    intros [E N K]. split.
    - intros s b w [_ H]. now apply E with b.
    - intros s x l e b w [-> H]. destruct (N s x l b w H) as (s' & w' & E1 & D1 & O1). eauto 7.
    - intros s l e b n w [-> H] Hn. destruct (K s l b n w H Hn) as (k & s' & w' & E1 & D1 & O1).
      exists k, s', w'. auto.
  Qed.

  Section Run.
    Context {S T : Type} (us : T -> O -> O) (R : O -> O -> Prop) (src : source S W T) (D : S -> list T -> bool -> Z -> Prop).
    Hypothesis L : gdelivers us R src D.

    (** Pulling until something comes through. *)
    Inductive pulled : Type :=
    | Got (v : T) (gs' : list (astage T)) (ls' : list T) (o' : O)
    | Stopped (ls' : list T) (o' : O)
    | Dry (gs' : list (astage T)) (o' : O).
    Fixpoint pull (gs : list (astage T)) (ls : list T) (o : O) : pulled :=
      match ls with
      | [] => Dry gs o
      | v :: ls' =>
          match pass gs v (us v o) with
          | (Emit v', gs', o') => Got v' gs' ls' o'
          | (Reject, gs', o') => pull gs' ls' o'
          | (Stop, _, o') => Stopped ls' o'
          end
      end.

    Lemma pull_pipeline ls : forall gs o,
      match pull gs ls o with
      | Got v gs' ls' _ => pipeline (plan gs) ls = v :: pipeline (plan gs') ls' /\ (List.length ls' < List.length ls)%nat /\
          (Forall plain (plan gs) -> Forall plain (plan gs'))
      | Stopped ls' _ => pipeline (plan gs) ls = [] /\ (List.length ls' < List.length ls)%nat
      | Dry _ _ => pipeline (plan gs) ls = []
      end.
    Proof.
      induction ls as [|v ls IH]; intros gs o; [apply pipeline_nil|]. cbn [pull].
      pose proof (pass_pipeline gs v (us v o) ls) as HP.
      destruct (pass gs v (us v o)) as [[d gs1] o1] eqn:EP. destruct d as [v'| |].
      - split; [exact HP|]. split; [cbn; lia|]. eapply pass_plain; eassumption.
      - specialize (IH gs1 o1). destruct (pull gs1 ls o1) as [v' gs' ls' o'|ls' o'|gs' o']; rewrite HP.
        + destruct IH as (H1 & H2 & H3). split; [exact H1|]. split; [cbn; lia|].
          intros Hpl. apply H3. eapply pass_plain; eassumption.
        + destruct IH as [H1 H2]. split; [exact H1|cbn; lia].
        + exact IH.
      - split; [exact HP|cbn; lia].
    Qed.

    Lemma next_loop ls : forall opl gs z w e b hp fuel,
      D z ls e b -> Forall2 means opl gs -> (List.length ls < fuel)%nat ->
      (e = true \/ forall gs' o', pull gs ls (obs w) <> Dry gs' o') ->
      match pull gs ls (obs w) with
      | Got v gs' ls' o' => exists opl' z' w', nextLoop src fuel (mkStream true opl hp, (z, w))
          = (Ok (Some v), (mkStream true opl' hp, (z', w'))) /\ Forall2 means opl' gs' /\ D z' ls' e b /\ obs w' = o'
      | Stopped ls' o' => exists z' w', nextLoop src fuel (mkStream true opl hp, (z, w))
          = (Ok None, (mkStream false [] hp, (z', w'))) /\ D z' ls' e b /\ obs w' = o'
      | Dry _ o' => exists z' w', nextLoop src fuel (mkStream true opl hp, (z, w))
          = (Ok None, (mkStream false [] hp, (z', w'))) /\ obs w' = o'
      end.
    Proof.
      induction ls as [|v ls IH]; intros opl gs z w e b hp [|fuel] HD HM Hf He; cbn [List.length] in Hf; try lia.
      - cbn [pull] in *. assert (e = true) as -> by (destruct He as [He|He]; [exact He|now specialize (He gs (obs w))]).
        destruct (gd_end _ _ _ _ L z b w HD) as (z' & w' & E & HO). exists z', w'.
        cbn [nextLoop]. unfold xbind at 1, onSource. rewrite E. split; [reflexivity|exact HO].
      - destruct (gd_next _ _ _ _ L z v ls e b w HD) as (z1 & w1 & E1 & D1 & O1).
        destruct (stages_pass opl gs HM [] v w1) as (opl1 & w2 & E2 & M2 & O2). cbn [app] in E2.
        cbn [pull] in *. rewrite <- O1 in *. destruct (pass gs v (obs w1)) as [[d gs1] o1] eqn:EP. cbn [fst snd] in *.
        assert (ER : runStages v (mkStream true opl hp, (z1, w1)) = (Ok d, (mkStream true opl1 hp, (z1, w2)))).
        { unfold runStages. cbn [Stream_Model.ops live hasPred]. rewrite E2. reflexivity. }
        assert (EL : nextLoop src (Datatypes.S fuel) (mkStream true opl hp, (z, w))
          = match d with
            | Emit v => (Ok (Some v), (mkStream true opl1 hp, (z1, w2)))
            | Reject => nextLoop src fuel (mkStream true opl1 hp, (z1, w2))
            | Stop => (Ok None, (mkStream false [] hp, (z1, w2)))
            end).
        { cbn [nextLoop]. unfold xbind at 1, onSource. rewrite E1. unfold xbind at 1. rewrite ER. now destruct d. }
        rewrite EL. clear EL. destruct d as [v'| |].
        + exists opl1, z1, w2. repeat split; auto.
        + subst o1. specialize (IH opl1 gs1 z1 w2 e b hp fuel D1 M2 ltac:(lia) He).
          destruct (pull gs1 ls (obs w2)); exact IH.
        + exists z1, w2. repeat split; auto.
    Qed.

    (** ** Builder calls *)
    Inductive astands : build W T -> astage T -> Prop :=
    | as_map f g u : answers_upd obs f g u -> astands (BMap f) (SMap g, u)
    | as_filter p q u : answers_upd obs p q u -> astands (BFilter p) (SFilter q, u)
    | as_skip n u : 0 <= n -> astands (BSkip n) (SSkip n, u)
    | as_limit n u : 0 <= n -> astands (BLimit n) (SLimit n, u)
    | as_peek c u : answers_upd obs c (fun _ => tt) u -> astands (BPeek c) (SPeek, u).

    (** The stages that end up in ops, and how many elements are skipped at the source. *)
    Fixpoint eff (hp : bool) (gs : list (astage T)) : list (astage T) :=
      match gs with
      | [] => []
      | (SSkip n, u) :: r => if (n =? 0) || negb hp then eff hp r else (SSkip n, u) :: eff hp r
      | (SFilter p, u) :: r => (SFilter p, u) :: eff true r
      | (SLimit n, u) :: r => (SLimit n, u) :: eff true r
      | g :: r => g :: eff hp r
      end.
    Fixpoint direct (hp : bool) (gs : list (astage T)) : Z :=
      match gs with
      | [] => 0
      | (SSkip n, u) :: r => if negb hp then n + direct hp r else direct hp r
      | (SFilter p, u) :: r => direct true r
      | (SLimit n, u) :: r => direct true r
      | g :: r => direct hp r
      end.

    Definition nonneg (g : stage T) : Prop := match g with SSkip n | SLimit n => 0 <= n | _ => True end.
    Lemma astands_nonneg cs gs : Forall2 astands cs gs -> Forall nonneg (plan gs).
    Proof. induction 1 as [|c [g u] cs gs H HF IH]; constructor; [|exact IH]. inversion H; subst; cbn; auto. Qed.
    Lemma direct_range gs : Forall nonneg (plan gs) -> forall hp, 0 <= direct hp gs <= skips (plan gs).
    Proof.
      induction gs as [|[g u] gs IH]; intros HN hp; cbn [plan map fst skips direct] in *; [lia|].
      inversion HN as [|? ? Hg Hr]; subst. specialize (IH Hr). destruct g as [p|n|n|f|]; cbn in Hg.
      - apply IH.
      - specialize (IH hp). unfold plan in IH. destruct (negb hp); lia.
      - apply IH.
      - apply IH.
      - apply IH.
    Qed.

    Hypothesis R_refl : forall o, R o o.
    Hypothesis R_trans : forall o1 o2 o3, R o1 o2 -> R o2 o3 -> R o1 o3.

    Lemma skipn_add {A} (l : list A) n k : skipn n (skipn k l) = skipn (k + n) l.
    Proof. revert l. induction k as [|k IH]; intros [|x l]; cbn; auto. apply skipn_nil. Qed.

    Lemma calls_ok cs ags : Forall2 astands cs ags -> forall opl gs hp z ls e b w,
      D z ls e b -> skips (plan ags) <= b -> Forall2 means opl gs -> (hp = false -> Forall plain (plan gs)) ->
      exists opl' hp' z' w', calls src cs (mkStream true opl hp, (z, w)) = (Ok tt, (mkStream true opl' hp', (z', w'))) /\
        Forall2 means opl' (gs ++ eff hp ags) /\ D z' (skipn (Z.to_nat (direct hp ags)) ls) e (b - direct hp ags) /\
        R (obs w) (obs w') /\ (hp' = false -> Forall plain (plan (gs ++ eff hp ags))) /\
        pipeline (plan (gs ++ eff hp ags)) (skipn (Z.to_nat (direct hp ags)) ls) = pipeline (plan ags) (pipeline (plan gs) ls).
    Proof.
      induction 1 as [|c [g u] cs ags Hc HF IH]; intros opl gs hp z ls e b w HD Hb HM HP.
      - cbn [calls eff direct]. exists opl, hp, z, w. rewrite app_nil_r, Z.sub_0_r. cbn [Z.to_nat skipn].
        repeat split; auto.
      - pose proof (astands_nonneg _ _ HF) as HN. pose proof (direct_range ags HN) as HR. cbn [plan map fst] in Hb. fold (plan ags) in Hb.
        assert (AddCase : forall o g' u' pred, means o (g', u') ->
          call src c (mkStream true opl hp, (z, w)) = addOp o pred (mkStream true opl hp, (z, w)) ->
          skips (plan ags) <= b -> (hp || pred = false -> plain g') ->
          direct (hp || pred) ags = direct hp ((g, u) :: ags) ->
          (g', u') :: eff (hp || pred) ags = eff hp ((g, u) :: ags) -> apply g' = apply g ->
          exists opl' hp' z' w', calls src (c :: cs) (mkStream true opl hp, (z, w)) = (Ok tt, (mkStream true opl' hp', (z', w'))) /\
            Forall2 means opl' (gs ++ eff hp ((g, u) :: ags)) /\
            D z' (skipn (Z.to_nat (direct hp ((g, u) :: ags))) ls) e (b - direct hp ((g, u) :: ags)) /\
            R (obs w) (obs w') /\ (hp' = false -> Forall plain (plan (gs ++ eff hp ((g, u) :: ags)))) /\
            pipeline (plan (gs ++ eff hp ((g, u) :: ags))) (skipn (Z.to_nat (direct hp ((g, u) :: ags))) ls)
              = pipeline (plan ((g, u) :: ags)) (pipeline (plan gs) ls)).
        { intros o g' u' pred Hm Ec Hb' Hpl Ed Ee Ea.
          destruct (IH (opl ++ [o]) (gs ++ [(g', u')]) (hp || pred)%bool z ls e b w) as (opl' & hp' & z' & w' & E1 & E2 & E3 & E4 & E5 & E6).
          - exact HD.
          - exact Hb'.
          - apply Forall2_app; [exact HM|]. constructor; [exact Hm|constructor].
          - intros Hf. unfold plan. rewrite map_app. apply Forall_app. split.
            + apply HP. destruct hp; [discriminate|reflexivity].
            + constructor; [|constructor]. now apply Hpl.
          - exists opl', hp', z', w'. rewrite <- !app_assoc in E2, E5, E6. cbn [app] in E2, E5, E6. 
            rewrite Ee in E2, E5, E6. rewrite Ed in E3, E6.
            split; [|split; [|split; [|split; [|split]]]]; try assumption.
            + cbn [calls]. unfold xbind. rewrite Ec. unfold addOp at 1. cbn [live Stream_Model.ops hasPred]. exact E1.
            + rewrite E6. unfold plan. rewrite map_app, pipeline_app. cbn [map fst].
              change (pipeline (map fst ags) (apply g' (pipeline (map fst gs) ls)) = pipeline (map fst ags) (apply g (pipeline (map fst gs) ls))).
              now rewrite Ea. }
        inversion Hc; subst; clear Hc.
        + apply (AddCase (OMap f) (SMap g0) u false);
            try (now constructor); try exact Hb; try (intros _; exact I); try (rewrite orb_true_r; discriminate);
            cbn [eff direct]; rewrite ?orb_false_r, ?orb_true_r; reflexivity.
        + apply (AddCase (OPred p) (SFilter q) u true);
            try (now constructor); try exact Hb; try (intros _; exact I); try (rewrite orb_true_r; discriminate);
            cbn [eff direct]; rewrite ?orb_false_r, ?orb_true_r; reflexivity.
        + cbn [skips] in Hb. destruct (n =? 0) eqn:E0.
          * apply Z.eqb_eq in E0 as ->. destruct (IH opl gs hp z ls e b w HD ltac:(lia) HM HP) as (opl' & hp' & z' & w' & E1 & E2 & E3 & E4 & E5 & E6).
            exists opl', hp', z', w'. cbn [eff direct]. cbn [Z.eqb orb].
            replace (if negb hp then 0 + direct hp ags else direct hp ags) with (direct hp ags) by (destruct hp; reflexivity).
            split; [exact E1|]. repeat split; assumption.
          * destruct hp.
            -- apply (AddCase (OSkip n) (SSkip n) u true); try reflexivity.
               ++ constructor.
               ++ cbn [call]. unfold Skip. replace (n <? 0) with false by lia. rewrite E0. reflexivity.
               ++ lia.
               ++ discriminate.
               ++ cbn [eff]. rewrite E0. reflexivity.
            -- pose proof (HR false) as HR0.
               destruct (gd_skip _ _ _ _ L z ls e b n w HD ltac:(lia)) as (k & z1 & w1 & E1 & D1 & O1).
               destruct (IH opl gs false z1 (skipn (Z.to_nat n) ls) e (b - n) w1 D1 ltac:(lia) HM HP)
                 as (opl' & hp' & z' & w' & E2 & E3 & E4 & E5 & E6 & E7).
               exists opl', hp', z', w'. cbn [eff direct negb]. rewrite E0. cbn [orb].
               rewrite skipn_add in E4, E7. replace (Z.to_nat n + Z.to_nat (direct false ags))%nat with (Z.to_nat (n + direct false ags)) in E4, E7 by lia.
               replace (b - n - direct false ags) with (b - (n + direct false ags)) in E4 by lia.
               split; [|split; [|split; [|split; [|split]]]]; try assumption.
               ++ cbn [calls call]. unfold xbind at 1, Skip. replace (n <? 0) with false by lia. rewrite E0.
                  unfold xbind at 1, xget at 1. cbn [fst hasPred negb live]. unfold xbind at 1, onSource. rewrite E1. exact E2.
               ++ eapply R_trans; eassumption.
               ++ rewrite E7. rewrite (plain_skip (plan gs) (Z.to_nat n) (HP eq_refl)). reflexivity.
        + apply (AddCase (OLimit n) (SLimit n) u true); try reflexivity.
          * constructor.
          * cbn [call]. unfold Limit. replace (n <? 0) with false by lia. reflexivity.
          * exact Hb.
          * rewrite orb_true_r. discriminate.
          * now rewrite orb_true_r.
          * cbn [eff]. now rewrite orb_true_r.
        + apply (AddCase (OPeek c0) SPeek u false);
            try (now constructor); try exact Hb; try (intros _; exact I); try (rewrite orb_true_r; discriminate);
            cbn [eff direct]; rewrite ?orb_false_r, ?orb_true_r; reflexivity.
    Qed.
  End Run.
End Obs.
