(** What a Peek sees, exactly. *)
From Coq Require Import Lia.
From Verif Require Import Base Arr Exn Stream_Model Stream_Spec Stream_Proofs Stream_Drain Stream_Exact_Spec.
Local Open Scope list_scope.
Local Open Scope Z_scope.

Section Stop.
  Context {T : Type}.

  (** [stopped], stage by stage. *)
  Fixpoint halts (gs : list (stage T)) (r : list T) : Prop :=
    match gs with
    | [] => False
    | g :: gs => match g with SLimit n => n < Z.of_nat (List.length r) | _ => False end \/ halts gs (apply g r)
    end.
  Lemma halts_stopped gs : forall r, halts gs r <-> stopped gs r.
  Proof.
    induction gs as [|g gs IH]; intros r; cbn [halts].
    - split; [contradiction|]. intros (a & n & b & E & _). destruct a; discriminate.
    - rewrite IH. split.
      + intros [H|(a & n & b & -> & H)].
        * destruct g; try contradiction. exists [], n, gs. split; [reflexivity|exact H].
        * exists (g :: a), n, b. split; [reflexivity|]. now rewrite pipeline_cons.
      + intros ([|g' a] & n & b & E & H); injection E as -> ->.
        * now left.
        * right. exists a, n, b. split; [reflexivity|]. now rewrite pipeline_cons in H.
  Qed.
  Lemma halts_nil gs : Forall nonneg gs -> ~ halts gs [].
  Proof.
    induction 1 as [|g gs Hg H IH]; cbn [halts]; [tauto|]. intros [H1|H1].
    - destruct g; try contradiction. cbn in *. lia.
    - apply IH. replace (apply g []) with (@nil T) in H1; [exact H1|].
      destruct g; cbn; rewrite ?skipn_nil, ?firstn_nil; reflexivity.
  Qed.

  Lemma pass_halts {O} (gs : list (stage T)) : Forall nonneg gs -> forall v (o : O) d gs' o',
    pass (map hush gs) v o = (d, map hush gs', o') ->
    Forall nonneg gs' /\
    match d with
    | Stop => halts gs [v]
    | _ => forall r, halts gs (v :: r) <-> halts gs' r
    end.
  Proof.
    induction 1 as [|g gs Hg HN IH]; intros v o d gs' o' E.
    { cbn in E. injection E as <- E _. destruct gs'; [|discriminate]. split; [constructor|]. reflexivity. }
    cbn [map] in E. change (hush g) with (g, fun (_ : T) (o : O) => o) in E. cbn [pass] in E.
    assert (Hinj : forall a b : list (stage T), map (@hush O T) a = map hush b -> a = b).
    { intros a b H. apply (f_equal (map fst)) in H. rewrite !map_map in H. now rewrite !map_id in H. }
    destruct g as [p|n|n|f|].
    - destruct (p v) eqn:Ep.
      + destruct (pass_hush gs v o) as (d1 & gs1 & E1 & _). rewrite E1 in E. injection E as -> E ->.
        apply (Hinj (SFilter p :: gs1)) in E as <-. destruct (IH v _ _ _ _ E1) as [N1 H1]. split; [now constructor|].
        destruct d; cbn [halts apply filter]; rewrite Ep.
        * intros r. now rewrite H1.
        * intros r. now rewrite H1.
        * now right.
      + injection E as <- E _. apply (Hinj (SFilter p :: gs)) in E as <-. split; [now constructor|].
        intros r. cbn [halts apply filter]. now rewrite Ep.
    - cbn in Hg. destruct (n >? 0) eqn:En.
      + injection E as <- E _. apply (Hinj (SSkip (n - 1) :: gs)) in E as <-. split; [constructor; [cbn; lia|exact HN]|].
        intros r. cbn [halts apply]. replace (Z.to_nat n) with (Datatypes.S (Z.to_nat (n - 1))) by lia. reflexivity.
      + destruct (pass_hush gs v o) as (d1 & gs1 & E1 & _). rewrite E1 in E. injection E as -> E ->.
        apply (Hinj (SSkip n :: gs1)) in E as <-. destruct (IH v _ _ _ _ E1) as [N1 H1]. split; [now constructor|].
        assert (Z.to_nat n = 0%nat) as E0 by lia.
        destruct d; cbn [halts apply]; rewrite ?E0; cbn [skipn].
        * intros r. rewrite ?E0. cbn [skipn]. now rewrite H1.
        * intros r. rewrite ?E0. cbn [skipn]. now rewrite H1.
        * now right.
    - cbn in Hg. destruct (n >? 0) eqn:En.
      + destruct (pass_hush gs v o) as (d1 & gs1 & E1 & _). rewrite E1 in E. injection E as -> E ->.
        apply (Hinj (SLimit (n - 1) :: gs1)) in E as <-. destruct (IH v _ _ _ _ E1) as [N1 H1]. split; [constructor; [cbn; lia|exact N1]|].
        assert (Z.to_nat n = Datatypes.S (Z.to_nat (n - 1))) as E0 by lia.
        destruct d; cbn [halts apply]; rewrite ?E0; cbn [firstn List.length].
        * intros r. rewrite ?E0. cbn [firstn]. rewrite H1. split; intros [H2|H2]; auto; left; lia.
        * intros r. rewrite ?E0. cbn [firstn]. rewrite H1. split; intros [H2|H2]; auto; left; lia.
        * right. now rewrite firstn_nil.
      + injection E as <- E _. apply (Hinj (SLimit n :: gs)) in E as <-. split; [now constructor|].
        cbn [halts List.length]. left. lia.
    - destruct (pass_hush gs (f v) o) as (d1 & gs1 & E1 & _). rewrite E1 in E. injection E as -> E ->.
      apply (Hinj (SMap f :: gs1)) in E as <-. destruct (IH _ _ _ _ _ E1) as [N1 H1]. split; [now constructor|].
      destruct d; cbn [halts apply map].
      + intros r. now rewrite H1.
      + intros r. now rewrite H1.
      + now right.
    - destruct (pass_hush gs v o) as (d1 & gs1 & E1 & _). rewrite E1 in E. injection E as -> E ->.
      apply (Hinj (SPeek :: gs1)) in E as <-. destruct (IH _ _ _ _ _ E1) as [N1 H1]. split; [now constructor|].
      destruct d; cbn [halts apply].
      + intros r. now rewrite H1.
      + intros r. now rewrite H1.
      + now right.
  Qed.

  Lemma taken_cons gs gs' (x : T) l r : Forall nonneg gs -> (forall r, halts gs (x :: r) <-> halts gs' r) ->
    taken gs' l r -> taken gs (x :: l) (x :: r).
  Proof.
    intros HN HH (q & -> & Hq & Hm). exists q. split; [reflexivity|]. split.
    - intros H. apply halts_stopped, HH, halts_stopped. auto.
    - intros [|y a] b E Hb Hs; apply halts_stopped in Hs.
      + now apply halts_nil in Hs.
      + injection E as -> E. apply HH, halts_stopped in Hs. exact (Hm a b E Hb Hs).
  Qed.
  Lemma taken_stop gs (x : T) l : Forall nonneg gs -> halts gs [x] -> taken gs (x :: l) [x].
  Proof.
    intros HN HH. exists l. split; [reflexivity|]. split; [intros _; now apply halts_stopped|].
    intros [|y a] b E Hb Hs; apply halts_stopped in Hs.
    - now apply halts_nil in Hs.
    - injection E as -> E. destruct a; [|discriminate]. cbn in E. now subst b.
  Qed.
  Lemma taken_nil gs : taken (T := T) gs [] [].
  Proof.
    exists []. split; [reflexivity|]. split; [congruence|]. intros a b E Hb. destruct a; [|discriminate]. cbn in E. now subst b.
  Qed.

  Lemma drain_peek_exact ls : forall (pre post : list (stage T)) o, Forall nonneg post ->
    exists r, taken post (pipeline pre ls) r /\
      snd (fst (drain (fun _ o => o) (map hush pre ++ sees :: map hush post) ls o)) = o ++ r.
  Proof.
    induction ls as [|v ls IH]; intros pre post o HN.
    { exists []. rewrite pipeline_nil. split; [apply taken_nil|]. cbn. now rewrite app_nil_r. }
    cbn [drain]. rewrite pass_app. pose proof (pass_pipeline (map hush pre) v o ls) as HP.
    destruct (pass_hush pre v o) as (d & pre' & E & _). rewrite E in HP |- *. rewrite !plan_hush in HP. destruct d as [x| |].
    - cbn [pass sees]. destruct (pass_hush post x (o ++ [x])) as (d & post' & E' & _). rewrite E'.
      destruct (pass_halts post HN _ _ _ _ _ E') as [HN' HH].
      fold (@sees T). rewrite HP. destruct (IH pre' post' (o ++ [x]) HN') as (r & Hr & E2). destruct d.
      + exists (x :: r). split; [now apply taken_cons with post'|].
        destruct (drain _ _ ls (o ++ [x])) as [[? ?] ?]. cbn [fst snd] in *. rewrite E2, <- app_assoc. reflexivity.
      + exists (x :: r). split; [now apply taken_cons with post'|]. rewrite E2, <- app_assoc. reflexivity.
      + exists [x]. split; [now apply taken_stop|]. reflexivity.
    - rewrite HP. now apply IH.
    - rewrite HP. exists []. split; [apply taken_nil|]. cbn. now rewrite app_nil_r.
  Qed.

  (** ** The builder calls *)
  Lemma eff_true_halts {O} gs : exists gs', eff (O := O) true (map hush gs) = map hush gs' /\ (forall r, halts gs' r <-> halts gs r) /\
    (Forall nonneg gs -> Forall nonneg gs').
  Proof.
    induction gs as [|g gs (gs' & E & H & HN)]; [exists []; split; [reflexivity|split; [reflexivity|auto]]|]. cbn [map]. change (hush g) with (g, fun (_ : T) (o : O) => o).
    assert (HC : exists gs2, (g, fun (_ : T) (o : O) => o) :: eff true (map hush gs) = map hush gs2 /\ (forall r, halts gs2 r <-> halts (g :: gs) r) /\
      (Forall nonneg (g :: gs) -> Forall nonneg gs2)).
    { exists (g :: gs'). rewrite E. split; [reflexivity|]. split; [intros r; cbn [halts]; now rewrite H|].
      intros HF. inversion HF; subst. constructor; auto. }
    destruct g; try exact HC. cbn [eff]. destruct (n =? 0) eqn:En; cbn [orb negb]; [|exact HC].
    apply Z.eqb_eq in En as ->. exists gs'. split; [exact E|]. split; [|intros HF; inversion HF; auto].
    intros r. cbn [halts apply Z.to_nat skipn]. rewrite H. tauto.
  Qed.
  Lemma eff_false_halts {O} gs : exists gs', eff (O := O) false (map hush gs) = map hush gs' /\ (forall r, halts gs' r <-> halts (later gs) r) /\
    (Forall nonneg gs -> Forall nonneg gs').
  Proof.
    induction gs as [|g gs (gs' & E & H & HN)]; [exists []; split; [reflexivity|split; [reflexivity|auto]]|]. cbn [map]. change (hush g) with (g, fun (_ : T) (o : O) => o).
    destruct (eff_true_halts (O := O) gs) as (gt & Et & Ht & HNt).
    destruct g as [p|n|n|f|]; cbn [eff later selects].
    - exists (SFilter p :: gt). rewrite Et. split; [reflexivity|]. split; [intros r; cbn [halts]; now rewrite Ht|]. intros HF. inversion HF; subst. constructor; auto.
    - rewrite orb_true_r. exists gs'. split; [exact E|]. split; [exact H|]. intros HF. inversion HF; subst. auto.
    - exists (SLimit n :: gt). rewrite Et. split; [reflexivity|]. split; [intros r; cbn [halts]; now rewrite Ht|]. intros HF. inversion HF; subst. constructor; auto.
    - exists (SMap f :: gs'). rewrite E. split; [reflexivity|]. split; [intros r; cbn [halts]; now rewrite H|]. intros HF. inversion HF; subst. constructor; auto.
    - exists (SPeek :: gs'). rewrite E. split; [reflexivity|]. split; [intros r; cbn [halts]; now rewrite H|]. intros HF. inversion HF; subst. constructor; auto.
  Qed.
  Lemma direct_early {O} (gs : list (stage T)) : direct (O := O) false (map hush gs) = early gs.
  Proof.
    induction gs as [|g gs IH]; [reflexivity|]. cbn [map]. change (hush g) with (g, fun (_ : T) (o : O) => o).
    destruct g; cbn [direct early selects negb]; rewrite ?direct_true; try exact IH; try reflexivity. now rewrite IH.
  Qed.
  Lemma early_nonneg (gs : list (stage T)) : Forall nonneg gs -> 0 <= early gs.
  Proof. induction 1 as [|g gs Hg H IH]; cbn [early]; [lia|]. destruct g; cbn in *; lia. Qed.
  Lemma eff_plain {O} (gs : list (stage T)) : existsb selects gs = false -> forall gs', eff (O := O) false (map hush gs) = map hush gs' -> Forall plain gs'.
  Proof.
    assert (Hinj : forall a b : list (stage T), map (@hush O T) a = map hush b -> a = b).
    { intros a b H. apply (f_equal (map fst)) in H. rewrite !map_map in H. now rewrite !map_id in H. }
    induction gs as [|g gs IH]; cbn [existsb]; intros Hs gs' E.
    - destruct gs'; [constructor|discriminate].
    - apply orb_false_iff in Hs as [Hg Hs]. cbn [map] in E. change (hush g) with (g, fun (_ : T) (o : O) => o) in E.
      destruct (eff_false_halts (O := O) gs) as (g1 & E1 & _). specialize (IH Hs _ E1).
      destruct g; try discriminate; cbn [eff] in E.
      + rewrite orb_true_r, E1 in E. apply Hinj in E as <-. exact IH.
      + rewrite E1 in E. apply (Hinj (SMap f :: g1)) in E as <-. constructor; [exact I|exact IH].
      + rewrite E1 in E. apply (Hinj (SPeek :: g1)) in E as <-. constructor; [exact I|exact IH].
  Qed.
  Lemma taken_ext (gs gs' : list (stage T)) l r : (forall r, halts gs r <-> halts gs' r) -> taken gs l r -> taken gs' l r.
  Proof.
    intros H (q & E & H1 & H2). exists q. split; [exact E|]. split.
    - intros Hq. apply halts_stopped, H, halts_stopped. auto.
    - intros a b Eab Hb Hs. apply (H2 a b Eab Hb). now apply halts_stopped, H, halts_stopped.
  Qed.
End Stop.

Section Peek.
  Context {W T : Type} (seen : W -> list T).

  Lemma peek_exact {S} (src : source S W T) D cpre pre c cpost post z ls b w fuel : delivers seen src D ->
    Forall2 (stands seen) cpre pre -> answers_upd seen c (fun _ => tt) (fun v l => l ++ [v]) -> Forall2 (stands seen) cpost post ->
    D z ls b -> skips (pre ++ post) <= b -> (Datatypes.S (List.length ls) < fuel)%nat ->
    exists s' z' w' r, xbind (calls src (cpre ++ BPeek c :: cpost)) (fun _ => Slice src fuel) (New, (z, w)) =
        (Ok (pipeline (pre ++ post) ls), (s', (z', w'))) /\
      seen w' = seen w ++ r /\
      if existsb selects pre then taken post (pipeline pre ls) r
      else taken (later post) (skipn (Z.to_nat (early post)) (pipeline pre ls)) r.
  Proof.
    intros L Hpre Hc Hpost HD Hb Hf.
    assert (L' : delivers_upd seen (fun _ o => o) src D) by (destruct L as [X1 X2 X3]; split; assumption).
    set (ags := map hush pre ++ sees :: map hush post).
    assert (HS : Forall2 (astands seen) (cpre ++ BPeek c :: cpost) ags).
    { apply Forall2_app; [now apply stands_hush|]. constructor; [|now apply stands_hush]. now constructor. }
    assert (EPl : plan ags = pre ++ SPeek :: post).
    { unfold ags, plan. rewrite map_app. cbn [map]. fold (plan (map (@hush (list T) T) pre)). fold (plan (map (@hush (list T) T) post)).
      now rewrite !plan_hush. }
    assert (EPp : pipeline (plan ags) ls = pipeline (pre ++ post) ls) by (rewrite EPl, !pipeline_app; reflexivity).
    assert (HSk : skips (plan ags) <= b).
    { rewrite EPl. replace (skips (pre ++ SPeek :: post)) with (skips (pre ++ post)); [exact Hb|]. clear.
      induction pre as [|g pre IH]; [reflexivity|]. destruct g; cbn [app skips]; rewrite ?IH; reflexivity. }
    destruct (calls_slice seen _ src D _ ags z ls b w fuel L' HS HD HSk Hf) as (s' & z' & w' & E & HO).
    pose proof (astands_nonneg seen _ _ (stands_hush seen _ _ Hpre)) as HNpre.
    pose proof (astands_nonneg seen _ _ (stands_hush seen _ _ Hpost)) as HNpost. rewrite plan_hush in HNpre, HNpost.
    destruct (eff_false_halts (O := list T) pre) as (pre' & Epre & _).
    assert (EQ : pipeline pre' (skipn (Z.to_nat (direct false (map (@hush (list T) T) pre))) ls) = pipeline pre ls).
    { pose proof (eff_pipeline (map (@hush (list T) T) pre) ltac:(now rewrite plan_hush) [] false ls (fun _ => Forall_nil _)) as HE.
      rewrite Epre, !plan_hush in HE. exact HE. }
    assert (Eags : eff false ags = map hush pre' ++ sees :: eff (existsb selects pre) (map hush post)).
    { unfold ags. rewrite eff_app, Epre. cbn [eff sees]. unfold after. now rewrite plan_hush. }
    assert (Edir : direct false ags = direct false (map (@hush (list T) T) pre) + direct (existsb selects pre) (map (@hush (list T) T) post)).
    { unfold ags. rewrite direct_app. cbn [direct sees]. unfold after. now rewrite plan_hush. }
    exists s', z', w'. rewrite <- EPp.
    destruct (existsb selects pre) eqn:Es.
    - rewrite direct_true, Z.add_0_r in Edir. destruct (eff_true_halts (O := list T) post) as (post' & Epost & Hh & HN').
      rewrite Epost in Eags. rewrite Eags, Edir in HO.
      destruct (drain_peek_exact (skipn (Z.to_nat (direct false (map (@hush (list T) T) pre))) ls) pre' post' (seen w) (HN' HNpost)) as (r & Hr & E2).
      exists r. split; [exact E|]. rewrite HO, E2. split; [reflexivity|]. rewrite EQ in Hr. now apply taken_ext with post'.
    - destruct (eff_false_halts (O := list T) post) as (post' & Epost & Hh & HN').
      rewrite Epost in Eags. rewrite Eags, Edir in HO. rewrite (direct_early post) in HO.
      destruct (drain_peek_exact (skipn (Z.to_nat (direct false (map (@hush (list T) T) pre) + early post)) ls) pre' post' (seen w) (HN' HNpost)) as (r & Hr & E2).
      exists r. split; [exact E|]. rewrite HO, E2. split; [reflexivity|].
      pose proof (eff_plain pre Es pre' Epre) as HPl.
      pose proof (early_nonneg post HNpost) as Hep. pose proof (early_nonneg pre HNpre) as Hepre.
      rewrite <- EQ, <- plain_skip by exact HPl. rewrite skipn_skipn', direct_early.
      rewrite direct_early in Hr. replace (Z.to_nat (early post) + Z.to_nat (early pre))%nat with (Z.to_nat (early pre + early post)) by lia.
      now apply taken_ext with post'.
  Qed.
End Peek.

(** ** Limits over a source without end *)
Section Limit.
  Context {W T : Type} (pulls : W -> nat).

  Lemma drain_halts ls : forall (gs : list (stage T)) o, Forall nonneg gs -> halts gs ls ->
    (forall a b, ls = a ++ b -> b <> [] -> ~ halts gs a) ->
    snd (drain (fun _ => S) (map hush gs) ls o) = true /\
    snd (fst (drain (fun _ => S) (map hush gs) ls o)) = (List.length ls + o)%nat.
  Proof.
    induction ls as [|v ls IH]; intros gs o HN Hh Hmin; [now apply halts_nil in Hh|].
    cbn [drain]. destruct (pass_hush gs v (S o)) as (d & gs' & E & _). rewrite E.
    destruct (pass_halts gs HN _ _ _ _ _ E) as [HN' HH].
    assert (Hgo : d <> Stop -> snd (drain (fun _ => S) (map hush gs') ls (S o)) = true /\
      snd (fst (drain (fun _ => S) (map hush gs') ls (S o))) = (List.length ls + S o)%nat).
    { intros Hd. apply IH; [exact HN'|destruct d; try congruence; now apply HH|].
      intros a b Eab Hb Ha. apply (Hmin (v :: a) b ltac:(now rewrite Eab) Hb). destruct d; try congruence; now apply HH. }
    destruct d as [x| |].
    - destruct Hgo as [E1 E2]; [discriminate|]. destruct (drain _ _ ls (S o)) as [[r o''] s]. cbn [fst snd List.length] in *. split; [exact E1|lia].
    - destruct Hgo as [E1 E2]; [discriminate|]. cbn [List.length]. split; [exact E1|lia].
    - cbn [fst snd]. split; [reflexivity|]. destruct ls as [|y ls]; [reflexivity|].
      exfalso. exact (Hmin [v] (y :: ls) eq_refl ltac:(discriminate) HH).
  Qed.

  Lemma prefix_length (f : nat -> T) k m : List.length (prefix f k m) = m.
  Proof. unfold prefix. now rewrite map_length, seq_length. Qed.
  Lemma prefix_skipn (f : nat -> T) n : forall k m, skipn n (prefix f k m) = prefix f (k + n) (m - n).
  Proof.
    induction n as [|n IH]; intros k m; [now rewrite Nat.add_0_r, Nat.sub_0_r|].
    destruct m as [|m]; [reflexivity|]. unfold prefix in *. cbn [seq map skipn Nat.sub]. rewrite IH. replace (S k + n)%nat with (k + S n)%nat by lia. reflexivity.
  Qed.
  Lemma prefix_head (f : nat -> T) k m a b : prefix f k m = a ++ b -> a = prefix f k (List.length a).
  Proof.
    revert k m. induction a as [|x a IH]; intros k [|m] E; try reflexivity; try discriminate.
    unfold prefix in *. cbn [seq map app List.length] in *. injection E as -> E. f_equal. now apply IH with m.
  Qed.

  Lemma counted_endless_g {S} (src : source S W T) P f : counted pulls src P f -> endless (fun _ => tt) src P f ->
    gdelivers pulls (fun _ => Datatypes.S) (fun _ _ => True) src (fun z l e _ => e = false /\ exists k, P z k /\ l = prefix f k (List.length l)).
  Proof.
    intros H HE. split.
    - intros s b w [He _]. discriminate.
    - intros s x l e b w (-> & k & HP & E). unfold prefix in E. cbn [List.length seq map] in E. injection E as -> E.
      destruct (H s k w HP) as (z' & w' & E1 & P1 & O1). exists z', w'. split; [exact E1|]. split; [|exact O1].
      split; [reflexivity|]. exists (Datatypes.S k). auto.
    - intros s l e b n w (-> & k & HP & E) Hn. destruct (el_skip _ _ _ _ HE s k n w HP ltac:(lia)) as (r & z' & w' & E1 & P1 & _).
      exists r, z', w'. split; [exact E1|]. split; [|exact I]. split; [reflexivity|]. exists (k + Z.to_nat n)%nat. split; [exact P1|].
      rewrite E, prefix_skipn, prefix_length. reflexivity.
  Qed.

  Lemma limits_ok {S} (src : source S W T) P f cs gs m k z w fuel : counted pulls src P f -> endless (fun _ => tt) src P f ->
    Forall2 (stands pulls) cs gs -> P z k ->
    let k' := (k + Z.to_nat (early gs))%nat in
    stopped (later gs) (prefix f k' m) -> (forall j, (j < m)%nat -> ~ stopped (later gs) (prefix f k' j)) ->
    (Datatypes.S m < fuel)%nat ->
    exists s1 z1 w1 s' z' w', calls src cs (New, (z, w)) = (Ok tt, (s1, (z1, w1))) /\
      Slice src fuel (s1, (z1, w1)) = (Ok (pipeline gs (prefix f k (Z.to_nat (early gs) + m))), (s', (z', w'))) /\
      pulls w' = (m + pulls w1)%nat.
  Proof.
    intros HC HE HS HP k' Hst Hmin Hf. pose proof (counted_endless_g src P f HC HE) as L.
    pose proof (stands_hush pulls _ _ HS) as HA. pose proof (astands_nonneg pulls _ _ HA) as HN. rewrite plan_hush in HN.
    set (ls := prefix f k (Z.to_nat (early gs) + m)).
    destruct (calls_ok pulls _ _ src _ L (fun _ => I) (fun _ _ _ _ _ => I) cs (map hush gs) HA [] [] false z ls false (skips gs) w) as (opl & hp & z1 & w1 & E1 & M1 & D1 & _ & _ & EP).
    { split; [reflexivity|]. exists k. unfold ls. now rewrite prefix_length. }
    { rewrite plan_hush. lia. } { constructor. } { constructor. }
    rewrite direct_early in *. cbn [app] in *. rewrite plan_hush in EP. cbn [pipeline plan map fold_left] in EP.
    assert (Els : skipn (Z.to_nat (early gs)) ls = prefix f k' m).
    { unfold ls. rewrite prefix_skipn. fold k'. f_equal. lia. }
    rewrite Els in *. destruct (eff_false_halts (O := nat) gs) as (gs' & Eg & Hh & HN'). rewrite Eg in *.
    destruct (drain_halts (prefix f k' m) gs' (pulls w1) (HN' HN)) as [Hs Ho].
    { now apply Hh, halts_stopped. }
    { intros a b Eab Hb Ha. apply (Hmin (List.length a)).
      - apply (f_equal (@List.length T)) in Eab. rewrite prefix_length, app_length in Eab. destruct b; [congruence|]. cbn in Eab. lia.
      - apply halts_stopped, Hh. now rewrite <- (prefix_head _ _ _ _ _ Eab). }
    destruct (slice_drain pulls _ _ src _ L _ (prefix f k' m) opl (map hush gs') z1 w1 false 0 hp [] fuel (le_n _) D1 M1) as (z2 & w2 & E2 & O2).
    { rewrite prefix_length. lia. } { now right. }
    exists (mkStream true opl hp), z1, w1, (mkStream false [] hp), z2, w2. split; [exact E1|]. unfold Slice. rewrite E2.
    rewrite drain_pipeline, EP, O2, Ho, prefix_length. auto.
  Qed.
End Limit.
