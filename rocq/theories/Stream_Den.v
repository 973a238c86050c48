(** Finite streams with quiet callbacks: what is left in them. *)
From Coq Require Import Lia.
From Verif Require Import Base Arr Exn Stream_Model Stream_Spec Stream_Proofs.
Local Open Scope string_scope.
Local Open Scope list_scope.
Local Open Scope Z_scope.

Section Quiet.
  Context {W O : Type} (obs : W -> O).

  Definition quietly {T} (g : stage T) : stage T * (T -> O -> O) := (g, fun _ o => o).
  Lemma plan_quietly {T} (gs : list (stage T)) : plan (map quietly gs) = gs.
  Proof. unfold plan. rewrite map_map. cbn. apply map_id. Qed.
  Lemma stands_astands {T} (c : build W T) g : stands obs c g -> astands obs c (quietly g).
  Proof. intros H. inversion H; subst; now constructor. Qed.
  Lemma stands_all {T} (cs : list (build W T)) gs : Forall2 (stands obs) cs gs -> Forall2 (astands obs) cs (map quietly gs).
  Proof. induction 1; cbn; constructor; auto using stands_astands. Qed.

  Section Den.
    Context {S T : Type} (src : source S W T) (D : S -> list T -> Z -> Prop).
    Hypothesis L : delivers obs src D.
    Let L' := delivers_gdelivers obs src D L.

    Definition isQuiet (a : stage T * (T -> O -> O)) : Prop := forall v o, snd a v o = o.

    (** [l] is what is left, [b] how much may be skipped, [m] bounds the source. *)
    Definition Den (s : stream W T) (z : S) (l : list T) (b : Z) (m : nat) : Prop :=
      if live s then
        exists gs ls b', b <= b' /\ D z ls b' /\ Forall2 (means obs) (ops s) gs /\ Forall isQuiet gs /\
          l = pipeline (plan gs) ls /\ (List.length ls <= m)%nat /\ (hasPred s = false -> Forall plain (plan gs))
      else l = [].

    Lemma den_new z ls b m : D z ls b -> (List.length ls <= m)%nat -> Den New z ls b m.
    Proof. intros H Hm. exists [], ls, b. cbn. repeat split; auto. lia. Qed.

    Lemma pass_quiet (gs : list (stage T * (T -> O -> O))) : Forall isQuiet gs -> forall v o d gs' o',
      pass gs v o = (d, gs', o') -> Forall isQuiet gs' /\ o' = o.
    Proof.
      induction 1 as [|[g u] r Hg Hr IH]; intros v o d gs' o' E; cbn [pass] in E; [injection E as <- <- <-; auto|].
      unfold isQuiet in Hg. cbn [snd] in Hg.
      destruct g as [p|n|n|f|].
      - rewrite Hg in E. destruct (p v); [|injection E as <- <- <-; auto]. destruct (pass r v o) as [[d1 r1] o1] eqn:E1.
        injection E as <- <- <-. destruct (IH _ _ _ _ _ E1). auto.
      - destruct (n >? 0); [injection E as <- <- <-; auto|]. destruct (pass r v o) as [[d1 r1] o1] eqn:E1.
        injection E as <- <- <-. destruct (IH _ _ _ _ _ E1). auto.
      - destruct (n >? 0); [|injection E as <- <- <-; auto]. destruct (pass r v o) as [[d1 r1] o1] eqn:E1.
        injection E as <- <- <-. destruct (IH _ _ _ _ _ E1). auto.
      - rewrite Hg in E. destruct (pass r (f v) o) as [[d1 r1] o1] eqn:E1. injection E as <- <- <-. destruct (IH _ _ _ _ _ E1). auto.
      - rewrite Hg in E. destruct (pass r v o) as [[d1 r1] o1] eqn:E1. injection E as <- <- <-. destruct (IH _ _ _ _ _ E1). auto.
    Qed.
    Lemma pull_quiet ls : forall (gs : list (stage T * (T -> O -> O))) o, Forall isQuiet gs ->
      match pull (fun _ o => o) gs ls o with
      | Got v gs' ls' o' => Forall isQuiet gs' /\ o' = o
      | Stopped ls' o' => o' = o
      | Dry gs' o' => o' = o
      end.
    Proof.
      induction ls as [|v ls IH]; intros gs o HQ; [reflexivity|]. cbn [pull].
      destruct (pass gs v o) as [[d gs1] o1] eqn:E. destruct (pass_quiet gs HQ _ _ _ _ _ E) as [HQ1 ->].
      destruct d; [auto|now apply IH|reflexivity].
    Qed.

    Lemma den_next s z l b m : Den s z l b m -> forall w fuel, (m < fuel)%nat ->
      exists s' z' w', Next_ src fuel (s, (z, w)) = (Ok (hd_error l), (s', (z', w'))) /\ Den s' z' (tl l) b m /\
        obs w' = obs w /\ (l <> [] -> live s' = true) /\ hasPred s' = hasPred s /\
        (forall fuel', (m < fuel')%nat -> Next_ src fuel' (s, (z, w)) = Next_ src fuel (s, (z, w))).
    Proof.
      destruct s as [lv opl hp]. unfold Den. cbn [live Stream_Model.ops hasPred]. intros H w fuel Hf.
      destruct lv.
      2:{ subst l. exists (mkStream false [] hp), z, w. repeat split. congruence. }
      destruct H as (gs & ls & b' & Hb & HD & HM & HQ & -> & Hm & HP).
      assert (HN : forall fuel, (m < fuel)%nat -> _) by
        (intros fu Hfu; exact (next_loop obs _ _ src _ L' ls opl gs z w true b' hp fu (conj eq_refl HD) HM ltac:(lia) (or_introl eq_refl))).
      pose proof (HN fuel Hf) as H0. pose proof (pull_pipeline (fun _ o => o) ls gs (obs w)) as HPP.
      pose proof (pull_quiet ls gs (obs w) HQ) as HPQ.
      assert (EN : forall fu z w, Next_ src fu (mkStream true opl hp, (z, w)) = nextLoop src fu (mkStream true opl hp, (z, w))) by reflexivity.
      assert (HF : forall fuel', (m < fuel')%nat -> nextLoop src fuel' (mkStream true opl hp, (z, w)) = nextLoop src fuel (mkStream true opl hp, (z, w))).
      { (* more fuel makes no difference *)
        assert (Mono : forall k st r st', nextLoop src k st = (r, st') -> r <> Diverge -> forall k', (k <= k')%nat -> nextLoop src k' st = (r, st')).
        { clear. induction k as [|k IH]; intros st r st' E Hr k' Hk; cbn [nextLoop] in E; [injection E as <- <-; congruence|].
          destruct k' as [|k']; [lia|]. cbn [nextLoop]. unfold xbind at 1 in E. unfold xbind at 1.
          destruct (onSource (sNext src) st) as [[[v|]|e|] st1]; [|exact E..].
          unfold xbind at 1 in E. unfold xbind at 1. destruct (runStages v st1) as [[[v'| |]|e|] st2]; try exact E.
          apply IH; [exact E|exact Hr|lia]. }
        assert (Mo : forall a b, (m < a)%nat -> (a <= b)%nat -> nextLoop src b (mkStream true opl hp, (z, w)) = nextLoop src a (mkStream true opl hp, (z, w))).
        { intros a c Ha Hab. specialize (HN a Ha). destruct (nextLoop src a (mkStream true opl hp, (z, w))) as [r st'] eqn:E.
          apply (Mono _ _ _ _ E); [|exact Hab].
          destruct (pull (fun _ o => o) gs ls (obs w)); decompose [ex and] HN; congruence. }
        intros fuel' Hf'. destruct (Nat.le_ge_cases fuel fuel'); [now apply Mo|symmetry; now apply Mo]. }
      destruct (pull (fun _ o => o) gs ls (obs w)) as [v gs' ls' o'|ls' o'|gs' o'].
      - destruct H0 as (opl' & z' & w' & E & M' & [_ D'] & HO). destruct HPP as (EP & Hl & Hpl). destruct HPQ as [Q' ->].
        exists (mkStream true opl' hp), z', w'. rewrite EN, E, EP. cbn [hd_error tl].
        split; [reflexivity|]. split; [|split; [exact HO|split; [reflexivity|split; [reflexivity|]]]].
        + exists gs', ls', b'. cbn [Stream_Model.ops hasPred]. repeat split; auto. lia.
        + intros fuel' Hf'. rewrite EN, HF by assumption. exact E.
      - destruct H0 as (z' & w' & E & _ & HO). destruct HPP as [EP _]. subst o'.
        exists (mkStream false [] hp), z', w'. rewrite EN, E, EP. cbn [hd_error tl].
        repeat split; auto; try congruence. intros fuel' Hf'. rewrite EN, HF by assumption. exact E.
      - destruct H0 as (z' & w' & E & HO). subst o'.
        exists (mkStream false [] hp), z', w'. rewrite EN, E, HPP. cbn [hd_error tl].
        repeat split; auto; try congruence. intros fuel' Hf'. rewrite EN, HF by assumption. exact E.
    Qed.

    Lemma den_yields m : forall l s z b, Den s z l b m -> yields obs src (Datatypes.S m) s z l.
    Proof.
      induction l as [|x l IH]; intros s z b H; cbn [yields]; intros w;
        destruct (den_next s z _ b m H w (Datatypes.S m) ltac:(lia)) as (s' & z' & w' & E & H' & HO & _ & _ & HF);
        exists s', z', w'; (split; [intros fuel Hf; rewrite HF by lia; exact E|]); (split; [exact HO|]).
      - exact I.
      - now apply IH with b.
    Qed.

    Lemma den_length s z l b m : Den s z l b m -> (List.length l <= m)%nat.
    Proof.
      unfold Den. destruct (live s); [|intros ->; cbn; lia]. intros (gs & ls & b' & _ & _ & _ & _ & -> & Hm & _).
      pose proof (pipeline_length (plan gs) ls). lia.
    Qed.

    Lemma quietly_quiet (gs : list (stage T)) : Forall isQuiet (map quietly gs).
    Proof. induction gs; constructor; auto. intros v o. reflexivity. Qed.
    Lemma eff_quiet gs : forall hp, Forall isQuiet gs -> Forall isQuiet (eff (O := O) (T := T) hp gs).
    Proof.
      induction gs as [|[g u] gs IH]; intros hp HQ; [constructor|]. inversion HQ; subst.
      destruct g; cbn [eff]; auto. destruct ((n =? 0) || negb hp); auto.
    Qed.

    (** Builder calls on a stream that has not ended. *)
    Lemma den_calls cs gs : Forall2 (stands obs) cs gs -> forall s z l b m w,
      Den s z l b m -> live s = true -> skips gs <= b ->
      exists s' z' w', calls src cs (s, (z, w)) = (Ok tt, (s', (z', w'))) /\ Den s' z' (pipeline gs l) (b - skips gs) m /\
        live s' = true /\ obs w' = obs w.
    Proof.
      intros HS s z l b m w HD HL Hb. unfold Den in HD. rewrite HL in HD.
      destruct s as [lv opl hp]. cbn [live Stream_Model.ops hasPred] in *. subst lv.
      destruct HD as (gs0 & ls & b' & Hb' & HD & HM & HQ & -> & Hm & HP).
      destruct (calls_ok obs _ _ src _ L' (@eq_refl O) (@eq_trans O) cs _ (stands_all cs gs HS) opl gs0 hp z ls true b' w
        (conj eq_refl HD) ltac:(rewrite plan_quietly; lia) HM HP)
        as (opl' & hp' & z' & w' & E & M' & [_ D'] & HO & P' & EP).
      exists (mkStream true opl' hp'), z', w'. split; [exact E|]. split; [|split; [reflexivity|now symmetry]].
      exists (gs0 ++ eff hp (map quietly gs)), (skipn (Z.to_nat (direct hp (map quietly gs))) ls), (b' - direct hp (map quietly gs)).
      cbn [Stream_Model.ops hasPred]. rewrite plan_quietly in EP.
      split; [|split; [exact D'|split; [exact M'|split; [|split; [now symmetry|split; [|exact P']]]]]].
      - pose proof (direct_range (map quietly gs) (astands_nonneg obs _ _ (stands_all _ _ HS)) hp) as HR. rewrite plan_quietly in HR. lia.
      - apply Forall_app. split; [exact HQ|]. apply eff_quiet, quietly_quiet.
      - rewrite skipn_length. lia.
    Qed.

    Lemma apply_nil (g : stage T) : apply g [] = [].
    Proof. destruct g; cbn [apply]; auto using skipn_nil, firstn_nil. Qed.

    Lemma play_ok acts sacts : Forall2 (astands_for obs) acts sacts -> forall s z l b m ended w fuel,
      Den s z l b m -> (live s = false -> ended = true) -> no_skip_after_end ended sacts l -> askips sacts <= b -> (m < fuel)%nat ->
      exists s' z' w', play src fuel acts (s, (z, w)) = (Ok (splay sacts l), (s', (z', w'))) /\ obs w' = obs w.
    Proof.
      induction 1 as [|a sa acts sacts Ha HF IH]; intros s z l b m ended w fuel HD HE HN Hb Hf; [now exists s, z, w|].
      destruct Ha as [|c g Hc]; cbn [play splay no_skip_after_end askips] in *.
      - destruct (den_next s z l b m HD w fuel Hf) as (s1 & z1 & w1 & E1 & D1 & O1 & L1 & _).
        destruct (IH s1 z1 (tl l) b m (ended || match l with [] => true | _ => false end) w1 fuel D1) as (s2 & z2 & w2 & E2 & O2).
        { intros H. destruct l; [apply orb_true_r|]. rewrite L1 in H; congruence. }
        { exact HN. } { exact Hb. } { exact Hf. }
        exists s2, z2, w2. unfold xbind at 1. rewrite E1. unfold xbind. rewrite E2. split; [reflexivity|congruence].
      - destruct HN as [HN0 HN].
        assert (Hb' : (skips [g] <= b - askips sacts)).
        { destruct g; cbn [skips]; lia. }
        assert (HA : 0 <= askips sacts).
        { clear - HF. induction HF as [|a sa acts sacts Ha HF IH]; cbn [askips]; [lia|]. inversion Ha; subst; [exact IH|].
          inversion H; subst; cbn; lia. }
        assert (HG : 0 <= skips [g]) by (inversion Hc; subst; cbn; lia).
        destruct (live s) eqn:EL.
        + destruct (den_calls [c] [g] (Forall2_cons _ _ Hc (Forall2_nil _)) s z l b m w HD EL ltac:(lia)) as (s1 & z1 & w1 & E1 & D1 & L1 & O1).
          destruct (IH s1 z1 (apply g l) (b - skips [g]) m ended w1 fuel D1) as (s2 & z2 & w2 & E2 & O2);
            [congruence|exact HN|lia|exact Hf|].
          exists s2, z2, w2. cbn [calls] in E1. unfold xbind at 1 in E1. unfold xbind at 1.
          destruct (call src c (s, (z, w))) as [[u|e|] st1]; [|congruence|congruence]. unfold xret in E1.
          injection E1 as ->. rewrite E2. split; [reflexivity|congruence].
        + specialize (HE eq_refl). unfold Den in HD. rewrite EL in HD. subst l. rewrite apply_nil in *.
          assert (exists s1, call src c (s, (z, w)) = (Ok tt, (s1, (z, w))) /\ live s1 = false) as (s1 & E1 & L1).
          { inversion Hc; subst; cbn [call].
            - eexists. split; [reflexivity|exact EL].
            - eexists. split; [reflexivity|exact EL].
            - rewrite (HN0 eq_refl). exists s. split; [reflexivity|exact EL].
            - unfold Limit. replace (n <? 0) with false by lia. eexists. split; [reflexivity|exact EL].
            - eexists. split; [reflexivity|exact EL]. }
          destruct (IH s1 z [] b m ended w fuel) as (s2 & z2 & w2 & E2 & O2).
          { unfold Den. now rewrite L1. } { auto. } { exact HN. } { lia. } { exact Hf. }
          exists s2, z2, w2. unfold xbind. rewrite E1. split; [exact E2|exact O2].
    Qed.
  End Den.

  (** ** Terminal operations *)
  Section Terminals.
    Context {S T : Type} (src : source S W T).
    Local Notation yields := (yields obs src).

    Lemma yields_next n s z l : yields n s z l -> forall w, exists s' z' w',
      (forall fuel, (n <= fuel)%nat -> Next_ src fuel (s, (z, w)) = (Ok (hd_error l), (s', (z', w')))) /\ obs w' = obs w /\
      match l with [] => True | _ :: l' => yields n s' z' l' end.
    Proof. destruct l; exact (fun H => H). Qed.

    Lemma collect_ok c u : answers_upd obs c (fun _ => tt) u -> forall n l s z, yields n s z l -> forall w, exists s' z' w',
      (forall fuel, (n + List.length l < fuel)%nat -> Collect src fuel c (s, (z, w)) = (Ok tt, (s', (z', w')))) /\
      obs w' = fold_left (fun o v => u v o) l (obs w).
    Proof.
      intros Hc n. induction l as [|x l IH]; intros s z H w; destruct (yields_next _ _ _ _ H w) as (s1 & z1 & w1 & E1 & O1 & Y1);
        cbn [List.length hd_error fold_left] in *.
      - exists s1, z1, w1. split; [|exact O1]. intros [|fuel] Hf; [lia|]. cbn [Collect]. unfold xbind. now rewrite E1 by lia.
      - destruct (Hc x w1) as (w2 & E2 & O2). destruct (IH s1 z1 Y1 w2) as (s3 & z3 & w3 & E3 & O3).
        exists s3, z3, w3. split; [|congruence]. intros [|fuel] Hf; [lia|]. cbn [Collect]. unfold xbind at 1.
        rewrite E1 by lia. unfold xbind, onCallback, onSource, onWorld. rewrite E2. apply E3. lia.
    Qed.

    Lemma reduce_ok {A} (c : A -> T -> X W A) g u :
      (forall a, answers_upd obs (c a) (g a) u) -> forall n l s z, yields n s z l -> forall w a, exists s' z' w',
      (forall fuel, (n + List.length l < fuel)%nat -> Reduce src fuel a c (s, (z, w)) = (Ok (fold_left g l a), (s', (z', w')))) /\
      obs w' = fold_left (fun o v => u v o) l (obs w).
    Proof.
      intros Hc n. induction l as [|x l IH]; intros s z H w a; destruct (yields_next _ _ _ _ H w) as (s1 & z1 & w1 & E1 & O1 & Y1);
        cbn [List.length hd_error fold_left] in *.
      - exists s1, z1, w1. split; [|exact O1]. intros [|fuel] Hf; [lia|]. cbn [Reduce]. unfold xbind. now rewrite E1 by lia.
      - destruct (Hc a x w1) as (w2 & E2 & O2). destruct (IH s1 z1 Y1 w2 (g a x)) as (s3 & z3 & w3 & E3 & O3).
        exists s3, z3, w3. split; [|congruence]. intros [|fuel] Hf; [lia|]. cbn [Reduce]. unfold xbind at 1.
        rewrite E1 by lia. unfold xbind, onCallback, onSource, onWorld. rewrite E2. apply E3. lia.
    Qed.

    Lemma slice_loop n : forall l s z, yields n s z l -> forall w r, exists s' z' w',
      (forall fuel, (n + List.length l < fuel)%nat -> sliceLoop src fuel r (s, (z, w)) = (Ok (r ++ l), (s', (z', w')))) /\ obs w' = obs w.
    Proof.
      induction l as [|x l IH]; intros s z H w r; destruct (yields_next _ _ _ _ H w) as (s1 & z1 & w1 & E1 & O1 & Y1);
        cbn [List.length hd_error] in *.
      - exists s1, z1, w1. split; [|exact O1]. intros [|fuel] Hf; [lia|]. cbn [sliceLoop]. unfold xbind. rewrite E1 by lia.
        now rewrite app_nil_r.
      - destruct (IH s1 z1 Y1 w1 (r ++ [x])) as (s3 & z3 & w3 & E3 & O3).
        exists s3, z3, w3. split; [|congruence]. intros [|fuel] Hf; [lia|]. cbn [sliceLoop]. unfold xbind at 1.
        rewrite E1 by lia. rewrite E3 by lia. now rewrite <- app_assoc.
    Qed.

    Lemma count_loop n : forall l s z, yields n s z l -> forall w k, exists s' z' w',
      (forall fuel, (n + List.length l < fuel)%nat -> countLoop src fuel k (s, (z, w)) = (Ok (k + zlen l), (s', (z', w')))) /\ obs w' = obs w.
    Proof.
      induction l as [|x l IH]; intros s z H w k; destruct (yields_next _ _ _ _ H w) as (s1 & z1 & w1 & E1 & O1 & Y1);
        cbn [List.length hd_error] in *.
      - exists s1, z1, w1. split; [|exact O1]. intros [|fuel] Hf; [lia|]. cbn [countLoop]. unfold xbind. rewrite E1 by lia.
        unfold xret, zlen. cbn. now rewrite Z.add_0_r.
      - destruct (IH s1 z1 Y1 w1 (k + 1)) as (s3 & z3 & w3 & E3 & O3).
        exists s3, z3, w3. split; [|congruence]. intros [|fuel] Hf; [lia|]. cbn [countLoop]. unfold xbind at 1.
        rewrite E1 by lia. rewrite E3 by lia. unfold zlen. cbn [List.length]. do 2 f_equal. lia.
    Qed.

    Lemma all_ok p q u : answers_upd obs p q u -> forall n l s z, yields n s z l -> forall w, exists s' z' w',
      (forall fuel, (n + List.length l < fuel)%nat -> All src fuel p (s, (z, w)) = (Ok (forallb q l), (s', (z', w')))) /\
      ((forallb q l = true /\ obs w' = fold_left (fun o v => u v o) l (obs w)) \/
       exists a x r, l = a ++ x :: r /\ forallb q a = true /\ q x = false /\ obs w' = fold_left (fun o v => u v o) (a ++ [x]) (obs w) /\
         yields n s' z' r).
    Proof.
      intros Hc n. induction l as [|x l IH]; intros s z H w; destruct (yields_next _ _ _ _ H w) as (s1 & z1 & w1 & E1 & O1 & Y1);
        cbn [List.length hd_error forallb] in *.
      - exists s1, z1, w1. split; [|left; now split]. intros [|fuel] Hf; [lia|]. cbn [All]. unfold xbind. now rewrite E1 by lia.
      - destruct (Hc x w1) as (w2 & E2 & O2). destruct (q x) eqn:Eq.
        + destruct (IH s1 z1 Y1 w2) as (s3 & z3 & w3 & E3 & O3).
          exists s3, z3, w3. split.
          * intros [|fuel] Hf; [lia|]. cbn [All]. unfold xbind at 1.
            rewrite E1 by lia. unfold xbind, onCallback, onSource, onWorld. rewrite E2. cbn [negb]. apply E3. lia.
          * destruct O3 as [[O3 O4]|(a & y & r & -> & Ha & Hy & O3 & Y3)].
            -- left. split; [exact O3|]. cbn [fold_left]. congruence.
            -- right. exists (x :: a), y, r. cbn [forallb app fold_left]. rewrite Eq. repeat split; auto. congruence.
        + exists s1, z1, w2. split.
          * intros [|fuel] Hf; [lia|]. cbn [All]. unfold xbind at 1.
            rewrite E1 by lia. unfold xbind, onCallback, onSource, onWorld. rewrite E2. reflexivity.
          * right. exists [], x, l. cbn. repeat split; auto. congruence.
    Qed.

    Lemma any_ok p q u : answers_upd obs p q u -> forall n l s z, yields n s z l -> forall w, exists s' z' w',
      (forall fuel, (n + List.length l < fuel)%nat -> Any src fuel p (s, (z, w)) = (Ok (existsb q l), (s', (z', w')))) /\
      ((existsb q l = false /\ obs w' = fold_left (fun o v => u v o) l (obs w)) \/
       exists a x r, l = a ++ x :: r /\ existsb q a = false /\ q x = true /\ obs w' = fold_left (fun o v => u v o) (a ++ [x]) (obs w) /\
         yields n s' z' r).
    Proof.
      intros Hc n. induction l as [|x l IH]; intros s z H w; destruct (yields_next _ _ _ _ H w) as (s1 & z1 & w1 & E1 & O1 & Y1);
        cbn [List.length hd_error existsb] in *.
      - exists s1, z1, w1. split; [|left; now split]. intros [|fuel] Hf; [lia|]. cbn [Any]. unfold xbind. now rewrite E1 by lia.
      - destruct (Hc x w1) as (w2 & E2 & O2). destruct (q x) eqn:Eq.
        + exists s1, z1, w2. split.
          * intros [|fuel] Hf; [lia|]. cbn [Any]. unfold xbind at 1.
            rewrite E1 by lia. unfold xbind, onCallback, onSource, onWorld. rewrite E2. reflexivity.
          * right. exists [], x, l. cbn. repeat split; auto. congruence.
        + destruct (IH s1 z1 Y1 w2) as (s3 & z3 & w3 & E3 & O3).
          exists s3, z3, w3. split.
          * intros [|fuel] Hf; [lia|]. cbn [Any]. unfold xbind at 1.
            rewrite E1 by lia. unfold xbind, onCallback, onSource, onWorld. rewrite E2. cbn [orb]. apply E3. lia.
          * destruct O3 as [[O3 O4]|(a & y & r & -> & Ha & Hy & O3 & Y3)].
            -- left. split; [exact O3|]. cbn [fold_left]. congruence.
            -- right. exists (x :: a), y, r. cbn [existsb app fold_left]. rewrite Eq. repeat split; auto. congruence.
    Qed.

    Lemma sapp_nil a : (a ++ "")%string = a.
    Proof. induction a; cbn; congruence. Qed.
    Lemma sapp_assoc a b c : (a ++ (b ++ c))%string = ((a ++ b) ++ c)%string.
    Proof. induction a; cbn; congruence. Qed.
    Lemma concat_cons a l : String.concat "" (a :: l) = (a ++ String.concat "" l)%string.
    Proof. destruct l; cbn; [now rewrite sapp_nil|reflexivity]. Qed.
    Lemma string_loop sprint n : forall l s z, yields n s z l -> forall w first sb, exists s' z' w',
      (forall fuel, (n + List.length l < fuel)%nat -> stringLoop src fuel sprint first sb (s, (z, w)) =
         (Ok (sb ++ (if first : bool then joined sprint l else String.concat "" (map (fun v => ", " ++ sprint v) l)))%string, (s', (z', w')))) /\
      obs w' = obs w.
    Proof.
      induction l as [|x l IH]; intros s z H w first sb; destruct (yields_next _ _ _ _ H w) as (s1 & z1 & w1 & E1 & O1 & Y1);
        cbn [List.length hd_error] in *.
      - exists s1, z1, w1. split; [|exact O1]. intros [|fuel] Hf; [lia|]. cbn [stringLoop]. unfold xbind. rewrite E1 by lia.
        destruct first; cbn [joined map String.concat]; now rewrite sapp_nil.
      - destruct (IH s1 z1 Y1 w1 false ((if first then sb else (sb ++ ", ")%string) ++ sprint x)%string) as (s3 & z3 & w3 & E3 & O3).
        exists s3, z3, w3. split; [|congruence]. intros [|fuel] Hf; [lia|]. cbn [stringLoop]. unfold xbind at 1.
        rewrite E1 by lia. rewrite E3 by lia. cbn [map]. rewrite concat_cons. do 2 f_equal.
        destruct first; cbn [joined]; rewrite <- !sapp_assoc; reflexivity.
    Qed.
  End Terminals.

  (** ** A transformed stream is a source *)
  Section Transformed.
    Context {S T R : Type} (src : source S W T) (D : S -> list T -> Z -> Prop) (f : T -> X W R) (g : T -> R) (fuel : nat).
    Hypothesis L : delivers obs src D.
    Hypothesis Hf : answers obs f g.

    Definition DT (sz : stream W T * S) (l : list R) (b : Z) : Prop :=
      exists l0 m, l = map g l0 /\ Den D (fst sz) (snd sz) l0 b m /\ live (fst sz) = true /\ (m < fuel)%nat.

    Lemma transformed_delivers : delivers obs (transformed src fuel f) DT.
    Proof.
      split.
      - intros [s z] b w (l0 & m & E & HD & HL & Hm). destruct l0; [|discriminate]. cbn [fst snd] in *.
        destruct (den_next src D L s z [] b m HD w fuel Hm) as (s1 & z1 & w1 & E1 & _ & O1 & _).
        exists (s1, z1), w1. cbn [transformed sNext]. unfold xbind. rewrite E1. split; [reflexivity|exact O1].
      - intros [s z] x l b w (l0 & m & E & HD & HL & Hm). destruct l0 as [|y l0]; [discriminate|]. cbn [fst snd map] in *.
        injection E as -> ->.
        destruct (den_next src D L s z _ b m HD w fuel Hm) as (s1 & z1 & w1 & E1 & D1 & O1 & L1 & _).
        destruct (Hf y w1) as (w2 & E2 & O2).
        exists (s1, z1), w2. cbn [transformed sNext]. unfold xbind. rewrite E1. cbn [hd_error]. unfold onWorld. rewrite E2.
        split; [reflexivity|]. split; [|congruence]. exists l0, m. cbn [fst snd]. repeat split; auto. apply L1. discriminate.
      - intros [s z] l b n w (l0 & m & E & HD & HL & Hm) Hn. cbn [fst snd] in *.
        destruct (den_calls src D L [BSkip n] [SSkip n] ltac:(constructor; [constructor; lia|constructor]) s z l0 b m w HD HL ltac:(cbn; lia))
          as (s1 & z1 & w1 & E1 & D1 & L1 & O1).
        exists (-1), (s1, z1), w1. cbn [transformed sSkip]. unfold SkipNext. cbn [calls call] in E1. unfold xbind in *.
        destruct (Skip src n (s, (z, w))) as [[u|e|] st1]; [|congruence|congruence]. unfold xret in *. injection E1 as ->.
        split; [reflexivity|]. split; [|exact O1]. subst l. exists (skipn (Z.to_nat n) l0), m. cbn [fst snd].
        rewrite skipn_map. cbn [skips] in D1. rewrite Z.add_0_r in D1. repeat split; auto.
    Qed.
  End Transformed.
End Quiet.
