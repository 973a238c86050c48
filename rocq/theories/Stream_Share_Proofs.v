(** Streams over one source: proofs. *)
From Coq Require Import Lia.
From Verif Require Import Base Arr Exn Stream_Model Stream_Spec Stream_Proofs Stream_Den Stream_Sources Stream_Facts Stream_Share_Model Stream_Share_Spec.
Local Open Scope list_scope.
Local Open Scope Z_scope.

Definition deafOp {W T} (o : op W T) : Prop :=
  match o with OPred p => deaf p | OMap f => deaf f | OPeek c => deaf c | _ => True end.

Lemma deaf_run {W A B} (f : A -> X W B) a w w1 r w' : deaf f -> f a w = (r, w') -> exists w1', f a w1 = (r, w1').
Proof.
  intros H E. specialize (H a w w1). rewrite E in H. cbn in H. destruct (f a w1) as [r1 w1']. cbn in H. subst. eauto.
Qed.

Section Stages.
  Context {W T : Type}.

  Lemma stages_deaf todo : Forall (@deafOp W T) todo -> forall done v o w r o' w', Forall deafOp done -> Forall deafOp o ->
    stages done todo v (o, w) = (r, (o', w')) ->
    Forall deafOp o' /\ forall w1, exists w1', stages done todo v (o, w1) = (r, (o', w1')).
  Proof.
    induction todo as [|a todo IH]; intros HT done v o w r o' w' Hd Ho E.
    - cbn in E. injection E as <- <- <-. split; [exact Ho|]. intros w1. exists w1. reflexivity.
    - inversion HT as [|? ? Ha HT']; subst. specialize (IH HT').
      destruct a as [p|n|n|f|c]; cbn [stages] in E |- *.
      + unfold xbind, onWorld in *. destruct (p v w) as [[b|e|] w2] eqn:Ep.
        * assert (Q := fun w1 => deaf_run p v w w1 _ _ Ha Ep). destruct b.
          -- destruct (IH (done ++ [OPred p]) v o w2 r o' w') as [IH1 IH2];
               [apply Forall_app; split; [exact Hd|constructor; [exact Ha|constructor]]|exact Ho|exact E|]. split; [exact IH1|].
             intros w1. destruct (Q w1) as [w1' ->]. apply IH2.
          -- cbn in E. injection E as <- <- <-. split; [exact Ho|]. intros w1. destruct (Q w1) as [w1' ->]. exists w1'. reflexivity.
        * injection E as <- <- <-. split; [exact Ho|]. intros w1. destruct (deaf_run p v w w1 _ _ Ha Ep) as [w1' ->]. eauto.
        * injection E as <- <- <-. split; [exact Ho|]. intros w1. destruct (deaf_run p v w w1 _ _ Ha Ep) as [w1' ->]. eauto.
      + destruct (n >? 0).
        * cbn in E. injection E as <- <- <-. split; [apply Forall_app; split; [exact Hd|constructor; [exact I|exact HT']]|].
          intros w1. exists w1. reflexivity.
        * eapply IH; [apply Forall_app; split; [exact Hd|constructor; [exact I|constructor]]|exact Ho|exact E].
      + destruct (n >? 0).
        * unfold xbind, xget, xput in *. cbn [snd] in *. eapply IH; [| |exact E].
          -- apply Forall_app; split; [exact Hd|constructor; [exact I|constructor]].
          -- apply Forall_app; split; [exact Hd|constructor; [exact I|exact HT']].
        * cbn in E. injection E as <- <- <-. split; [exact Ho|]. intros w1. exists w1. reflexivity.
      + unfold xbind, onWorld in *. destruct (f v w) as [[b|e|] w2] eqn:Ep.
        * assert (Q := fun w1 => deaf_run f v w w1 _ _ Ha Ep).
          destruct (IH (done ++ [OMap f]) b o w2 r o' w') as [IH1 IH2];
            [apply Forall_app; split; [exact Hd|constructor; [exact Ha|constructor]]|exact Ho|exact E|]. split; [exact IH1|].
          intros w1. destruct (Q w1) as [w1' ->]. apply IH2.
        * injection E as <- <- <-. split; [exact Ho|]. intros w1. destruct (deaf_run f v w w1 _ _ Ha Ep) as [w1' ->]. eauto.
        * injection E as <- <- <-. split; [exact Ho|]. intros w1. destruct (deaf_run f v w w1 _ _ Ha Ep) as [w1' ->]. eauto.
      + unfold xbind, onWorld in *. destruct (c v w) as [[b|e|] w2] eqn:Ep.
        * assert (Q := fun w1 => deaf_run c v w w1 _ _ Ha Ep).
          destruct (IH (done ++ [OPeek c]) v o w2 r o' w') as [IH1 IH2];
            [apply Forall_app; split; [exact Hd|constructor; [exact Ha|constructor]]|exact Ho|exact E|]. split; [exact IH1|].
          intros w1. destruct (Q w1) as [w1' ->]. apply IH2.
        * injection E as <- <- <-. split; [exact Ho|]. intros w1. destruct (deaf_run c v w w1 _ _ Ha Ep) as [w1' ->]. eauto.
        * injection E as <- <- <-. split; [exact Ho|]. intros w1. destruct (deaf_run c v w w1 _ _ Ha Ep) as [w1' ->]. eauto.
  Qed.
End Stages.

Section Share.
  Context {S W T : Type} (src : source S W T) (D : S -> list T -> Z -> Prop).
  Hypothesis del : delivers (fun _ : W => tt) src D.
  Context (m : Z).
  Hypothesis over : staysOver src D m.

  Definition deafStream (s : stream W T) : Prop := Forall deafOp (ops s).

  (** What one use of a stream takes from the source, [took], is all that matters
      for it; what it leaves, [rest], may be given to it later in part, [more]. *)
  Definition local (u : use W T) (need : Z) : Prop := forall s z w l b r s' z' w',
    D z l b -> need <= b -> deafStream s -> use1 src u (s, (z, w)) = (r, (s', (z', w'))) ->
    deafStream s' /\ exists took rest b', l = took ++ rest /\ D z' rest b' /\ Z.min (b - need) m <= b' /\
      forall more w1, (rest = [] -> more = []) -> exists w1',
        use1 listSource u (s, (took ++ more, w1)) = (r, (s', (more, w1'))).

  Lemma runStages_deaf (Y Z : Type) v s (y : Y) w r s' y' w' : deafStream s ->
    runStages v (s, (y, w)) = (r, (s', (y', w'))) ->
    y' = y /\ deafStream s' /\ forall (y1 : Z) w1, exists w1', runStages v (s, (y1, w1)) = (r, (s', (y1, w1'))).
  Proof.
    unfold runStages. intros H E. destruct (stages [] (ops s) v (ops s, w)) as [r0 [o' w2]] eqn:Es.
    injection E as <- <- <- <-. destruct (stages_deaf _ H [] v _ _ _ _ _ (Forall_nil _) H Es) as [H1 H2].
    split; [reflexivity|]. split; [exact H1|]. intros y1 w1. destruct (H2 w1) as [w1' ->]. eauto.
  Qed.

  Lemma loop_local fuel : forall s z w l b r s' z' w', D z l b -> deafStream s ->
    nextLoop src fuel (s, (z, w)) = (r, (s', (z', w'))) ->
    deafStream s' /\ exists took rest b', l = took ++ rest /\ D z' rest b' /\ Z.min b m <= b' /\
      forall more w1, (rest = [] -> more = []) -> exists w1',
        nextLoop listSource fuel (s, (took ++ more, w1)) = (r, (s', (more, w1'))).
  Proof.
    induction fuel as [|fuel IH]; intros s z w l b r s' z' w' HD Hs E.
    - cbn in E. injection E as <- <- <- <-. split; [exact Hs|]. exists [], l, b. split; [reflexivity|]. split; [exact HD|]. split; [lia|].
      intros more w1 _. exists w1. reflexivity.
    - cbn [nextLoop] in E. unfold xbind at 1 in E. unfold onSource at 1 in E. destruct l as [|x l].
      + destruct (over z b w HD) as (z1 & w1 & b1 & En & HD1 & Hb1). rewrite En in E. cbn in E. injection E as <- <- <- <-.
        split; [constructor|]. exists [], [], b1. split; [reflexivity|]. split; [exact HD1|]. split; [exact Hb1|].
        intros more w2 Hm. rewrite (Hm eq_refl). exists w2. reflexivity.
      + destruct (del_next _ _ _ del z x l b w HD) as (z1 & w1 & En & HD1 & _). rewrite En in E. unfold xbind at 1 in E.
        destruct (runStages x (s, (z1, w1))) as [r1 [s1 [z2 w2]]] eqn:Er.
        destruct (runStages_deaf S (list T) x s z1 w1 r1 s1 z2 w2 Hs Er) as (-> & Hs1 & Q).
        assert (P : forall more w3, exists w3', onSource (sNext listSource) (s, (x :: more, w3)) = (Ok (Some x), (s, (more, w3))) /\
                      runStages x (s, (more, w3)) = (r1, (s1, (more, w3')))).
        { intros more w3. destruct (Q more w3) as [w3' Q']. exists w3'. split; [reflexivity|exact Q']. }
        clear Q Er. destruct r1 as [[v| |]|e|].
        * cbn in E. injection E as <- <- <- <-. split; [exact Hs1|]. exists [x], l, b. split; [reflexivity|]. split; [exact HD1|]. split; [lia|].
          intros more w3 _. destruct (P more w3) as (w3' & P1 & P2). exists w3'. cbn [nextLoop app]. unfold xbind at 1. rewrite P1.
          unfold xbind at 1. rewrite P2. reflexivity.
        * destruct (IH s1 z1 w2 l b r s' z' w' HD1 Hs1 E) as (Hs' & took & rest & b' & -> & HD' & Hb' & IHm). split; [exact Hs'|].
          exists (x :: took), rest, b'. split; [reflexivity|]. split; [exact HD'|]. split; [exact Hb'|]. intros more w3 Hm.
          destruct (P (took ++ more) w3) as (w3' & P1 & P2). destruct (IHm more w3' Hm) as (w4 & IH4). exists w4.
          cbn [nextLoop app]. unfold xbind at 1. rewrite P1. unfold xbind at 1. rewrite P2. exact IH4.
        * cbn in E. injection E as <- <- <- <-. split; [constructor|]. exists [x], l, b. split; [reflexivity|]. split; [exact HD1|]. split; [lia|].
          intros more w3 _. destruct (P more w3) as (w3' & P1 & P2). exists w3'. cbn [nextLoop app]. unfold xbind at 1. rewrite P1.
          unfold xbind at 1. rewrite P2. reflexivity.
        * injection E as <- <- <- <-. split; [exact Hs1|]. exists [x], l, b. split; [reflexivity|]. split; [exact HD1|]. split; [lia|].
          intros more w3 _. destruct (P more w3) as (w3' & P1 & P2). exists w3'. cbn [nextLoop app]. unfold xbind at 1. rewrite P1.
          unfold xbind at 1. rewrite P2. reflexivity.
        * injection E as <- <- <- <-. split; [exact Hs1|]. exists [x], l, b. split; [reflexivity|]. split; [exact HD1|]. split; [lia|].
          intros more w3 _. destruct (P more w3) as (w3' & P1 & P2). exists w3'. cbn [nextLoop app]. unfold xbind at 1. rewrite P1.
          unfold xbind at 1. rewrite P2. reflexivity.
  Qed.

  Lemma next_local fuel : local (UNext fuel) 0.
  Proof.
    intros s z w l b r s' z' w' HD Hb Hs E. cbn [use1] in E |- *. unfold Next_ in *. unfold xbind at 1 in E. unfold xget in E. cbn [fst] in E.
    destruct (live s) eqn:Hl.
    - destruct (loop_local fuel s z w l b r s' z' w' HD Hs E) as (H1 & took & rest & b' & H2 & H3 & Hb' & H4). split; [exact H1|].
      exists took, rest, b'. split; [exact H2|]. split; [exact H3|]. split; [lia|]. intros more w1 Hm. destruct (H4 more w1 Hm) as (w1' & H5). exists w1'.
      unfold xbind at 1, xget. cbn [fst]. rewrite Hl. exact H5.
    - cbn in E. injection E as <- <- <- <-. split; [constructor|]. exists [], l, b. split; [reflexivity|]. split; [exact HD|]. split; [lia|].
      intros more w1 _. exists w1. unfold xbind at 1, xget. cbn [fst]. rewrite Hl. reflexivity.
  Qed.

  Lemma add_local c o p : (forall (S' : Type) (src' : source S' W T), call src' c = addOp o p) -> deafOp o -> local (UBuild c) 0.
  Proof.
    intros Hc Ho s z w l b r s' z' w' HD Hb Hs E. cbn [use1] in E |- *. rewrite (Hc S src) in E. cbn in E. injection E as <- <- <- <-.
    split; [apply Forall_app; split; [exact Hs|constructor; [exact Ho|constructor]]|].
    exists [], l, b. split; [reflexivity|]. split; [exact HD|]. split; [lia|]. intros more w1 _. exists w1. rewrite Hc. reflexivity.
  Qed.

  Lemma idle_local u need : 0 <= need ->
    (exists r, forall (S' : Type) (src' : source S' W T) st, use1 src' u st = (r, st)) -> local u need.
  Proof.
    intros Hn (r0 & Hr) s z w l b r s' z' w' HD Hb Hs E. rewrite Hr in E. injection E as <- <- <- <-.
    split; [exact Hs|]. exists [], l, b. split; [reflexivity|]. split; [exact HD|]. split; [lia|].
    intros more w1 _. exists w1. apply Hr.
  Qed.

  Lemma use_local u : deafUse u -> local u (match u with UBuild (BSkip n) => Z.max 0 n | _ => 0 end).
  Proof.
    destruct u as [fuel|[f|p|n|n|c]]; intros H.
    - apply next_local.
    - apply (add_local _ (OMap f) false); [reflexivity|exact H].
    - apply (add_local _ (OPred p) true); [reflexivity|exact H].
    - intros s z w l b r s' z' w' HD Hb Hs E. cbn [use1 call] in E |- *. unfold Skip in *.
      destruct (n <? 0) eqn:H0; [cbn in E; injection E as <- <- <- <-; split; [exact Hs|];
        exists [], l, b; split; [reflexivity|]; split; [exact HD|]; split; [lia|]; intros more w1 _; exists w1; reflexivity|].
      destruct (n =? 0) eqn:H1; [cbn in E; injection E as <- <- <- <-; split; [exact Hs|];
        exists [], l, b; split; [reflexivity|]; split; [exact HD|]; split; [lia|]; intros more w1 _; exists w1; reflexivity|].
      unfold xbind, xget in *. cbn [fst] in *. destruct (negb (hasPred s)) eqn:Hp.
      + destruct (live s) eqn:Hl.
        * unfold onSource in *. destruct (del_skip _ _ _ del z l b n w HD ltac:(lia)) as (k & z1 & w1 & Ek & HD1 & _).
          rewrite Ek in E. cbn in E. injection E as <- <- <- <-. split; [exact Hs|].
          exists (firstn (Z.to_nat n) l), (skipn (Z.to_nat n) l), (b - n). split; [symmetry; apply firstn_skipn|].
          split; [exact HD1|]. split; [lia|]. intros more w2 Hm. exists w2. cbn. unfold xret.
          do 3 f_equal. rewrite skipn_app, firstn_length.
          destruct (Nat.le_gt_cases (Z.to_nat n) (List.length l)) as [G|G].
          -- rewrite skipn_all2 by (rewrite firstn_length; lia). replace (Z.to_nat n - Nat.min (Z.to_nat n) (List.length l))%nat with 0%nat by lia. reflexivity.
          -- rewrite Hm by (apply skipn_all2; lia). rewrite skipn_nil, app_nil_r. apply skipn_all2. rewrite firstn_length. lia.
        * cbn in E. injection E as <- <- <- <-. split; [exact Hs|].
          exists [], l, b. split; [reflexivity|]. split; [exact HD|]. split; [lia|]. intros more w1 _. exists w1. reflexivity.
      + cbn in E. injection E as <- <- <- <-. split; [apply Forall_app; split; [exact Hs|constructor; [exact I|constructor]]|].
        exists [], l, b. split; [reflexivity|]. split; [exact HD|]. split; [lia|]. intros more w1 _. exists w1. reflexivity.
    - destruct (n <? 0) eqn:H0.
      + apply idle_local; [lia|]. eexists. intros S' src' st. cbn. unfold Limit. rewrite H0. reflexivity.
      + apply (add_local _ (OLimit n) true); [|exact I]. intros S' src'. cbn. unfold Limit. rewrite H0. reflexivity.
    - apply (add_local _ (OPeek c) false); [reflexivity|exact H].
  Qed.

  Lemma dealt_own i who took rest : @dealt T i (repeat i (List.length took) ++ who) (took ++ rest) = took ++ dealt i who rest.
  Proof. induction took as [|x took IH]; cbn; [reflexivity|]. rewrite Nat.eqb_refl, IH. reflexivity. Qed.
  Lemma dealt_other i j who took rest : i <> j -> @dealt T j (repeat i (List.length took) ++ who) (took ++ rest) = dealt j who rest.
  Proof.
    intros H. induction took as [|x took IH]; cbn; [reflexivity|]. destruct (Nat.eqb_spec i j); [contradiction|exact IH].
  Qed.
  Lemma dealt_nil i who : @dealt T i who [] = [].
  Proof. destruct who; reflexivity. Qed.

  Lemma share us : Forall (fun u => deafUse (snd u)) us -> forall ss z w l b rs ss' z' w',
    (forall i, deafStream (ss i)) -> D z l b -> skipsOf us <= b -> skipsOf us <= m ->
    runOps (sharedUse src) us (ss, (z, w)) = (rs, (ss', (z', w'))) ->
    exists who, (List.length who <= List.length l)%nat /\ (exists b', D z' (skipn (List.length who) l) b') /\
      forall i w1, fst (runOps (use1 listSource) (usesOf i us) (ss i, (dealt i who l, w1))) = givenTo i us rs.
  Proof.
    induction us as [|[j u] us IH]; intros Hd ss z w l b rs ss' z' w' Hs HD Hb Hm E.
    - cbn in E. injection E as <- <- <- <-. exists []. cbn [List.length skipn skipsOf].
      split; [lia|]. split; [exists b; exact HD|]. reflexivity.
    - inversion Hd as [|? ? Hu Hd']; subst. cbn [snd] in Hu. cbn [runOps] in E. unfold sharedUse at 1 in E. cbn [fst snd] in E.
      destruct (use1 src u (ss j, (z, w))) as [r [s1 [z1 w1]]] eqn:Eu.
      set (ss1 := fun k => if Nat.eqb k j then s1 else ss k) in *.
      destruct (runOps (sharedUse src) us (ss1, (z1, w1))) as [rs1 [ss2 [z2 w2]]] eqn:Er. injection E as <- <- <- <-.
      set (need := match u with UBuild (BSkip n) => Z.max 0 n | _ => 0 end).
      assert (Hneed : skipsOf ((j, u) :: us) = need + skipsOf us) by (unfold need; destruct u as [|[]]; reflexivity).
      assert (Hpos : forall us : list (nat * use W T), 0 <= skipsOf us).
      { clear. induction us as [|[j u] us IH]; cbn; [lia|]. destruct u as [|[]]; lia. }
      assert (Hn0 : 0 <= need) by (unfold need; clear; destruct u as [|[]]; lia).
      specialize (Hpos us).
      destruct (use_local u Hu (ss j) z w l b r s1 z1 w1 HD ltac:(fold need; lia) (Hs j) Eu) as (Hs1 & took & rest & b1 & -> & HD1 & Hb1 & Q).
      fold need in Hb1.
      destruct (IH Hd' ss1 z1 w1 rest b1 rs1 ss2 z2 w2) as (who & Hlen & (b2 & HD2) & P).
      { intros i. unfold ss1. destruct (Nat.eqb i j); [exact Hs1|apply Hs]. }
      { exact HD1. } { lia. } { lia. } { exact Er. }
      exists (repeat j (List.length took) ++ who). rewrite !app_length, repeat_length. split; [lia|]. split.
      + exists b2.
        replace (skipn (List.length took + List.length who) (took ++ rest)) with (skipn (List.length who) rest); [exact HD2|].
        rewrite skipn_app, (skipn_all2 took) by lia. replace (List.length took + List.length who - List.length took)%nat with (List.length who) by lia. reflexivity.
      + intros i w3. cbn [usesOf givenTo]. destruct (Nat.eqb_spec j i) as [->|Hij].
        * rewrite dealt_own. cbn [runOps].
          destruct (Q (dealt i who rest) w3) as (w4 & ->); [intros ->; apply dealt_nil|].
          specialize (P i w4). unfold ss1 in P at 1. rewrite Nat.eqb_refl in P.
          destruct (runOps (use1 listSource) (usesOf i us) (s1, (dealt i who rest, w4))) as [q1 q2]. cbn in P |- *. rewrite P. reflexivity.
        * rewrite dealt_other by exact Hij. specialize (P i w3). unfold ss1 in P at 1.
          destruct (Nat.eqb_spec i j) as [->|_]; [contradiction|]. exact P.
  Qed.
End Share.

(** ** One stream over its share *)

Section Alone.
  Context {W T : Type}.

  Lemma list_delivers : delivers (fun _ : W => tt) (@listSource W T) (fun s l _ => s = l).
  Proof.
    split.
    - intros s b w ->. exists [], w. split; reflexivity.
    - intros s x l b w ->. exists l, w. split; [reflexivity|]. split; reflexivity.
    - intros s l b n w -> H. exists (-1), (skipn (Z.to_nat n) l), w. split; [reflexivity|]. split; reflexivity.
  Qed.

  Lemma run_calls {S} (src : source S W T) cs : forall st st', calls src cs st = (Ok tt, st') ->
    runOps (use1 src) (map UBuild cs) st = (map (fun _ => Ok None) cs, st').
  Proof.
    induction cs as [|c cs IH]; intros st st' E; cbn in E |- *.
    - injection E as <-. reflexivity.
    - unfold xbind in E |- *. destruct (call src c st) as [[[]|e|] st1] eqn:Ec; [|discriminate|discriminate].
      cbn. rewrite (IH st1 st' E). reflexivity.
  Qed.

  Lemma run_app {S} (src : source S W T) us vs st :
    runOps (use1 src) (us ++ vs) st =
    let '(rs, st') := runOps (use1 src) us st in let '(rs', st'') := runOps (use1 src) vs st' in (rs ++ rs', st'').
  Proof.
    revert st. induction us as [|u us IH]; intros st; cbn.
    - destruct (runOps (use1 src) vs st). reflexivity.
    - destruct (use1 src u st) as [r st1]. rewrite IH. destruct (runOps (use1 src) us st1) as [rs st2].
      destruct (runOps (use1 src) vs st2) as [rs' st3]. reflexivity.
  Qed.

  Lemma run_dead {S} (src : source S W T) fuels : forall s z w, live s = false ->
    fst (runOps (use1 src) (map UNext fuels) (s, (z, w))) = repeat (Ok None) (List.length fuels).
  Proof.
    induction fuels as [|fuel fuels IH]; intros s z w H; [reflexivity|]. cbn [map runOps use1 List.length repeat].
    unfold Next_, xbind, xget. cbn [fst]. rewrite H. cbn.
    specialize (IH (mkStream false [] (hasPred s)) z w eq_refl).
    destruct (runOps (use1 src) (map UNext fuels) (mkStream false [] (hasPred s), (z, w))). cbn in IH |- *. rewrite IH. reflexivity.
  Qed.

  Lemma run_yields {S O} (obs : W -> O) (src : source S W T) n l : forall fuels s z w, yields obs src n s z l ->
    Forall (fun fuel => (n <= fuel)%nat) fuels ->
    fst (runOps (use1 src) (map UNext fuels) (s, (z, w))) =
    firstn (List.length fuels) (map (fun v => Ok (Some v)) l ++ repeat (Ok None) (List.length fuels)).
  Proof.
    induction l as [|x l IH]; intros fuels s z w Y H; destruct fuels as [|fuel fuels]; try reflexivity.
    - inversion H as [|? ? H1 H2]; subst. destruct (Y w) as (s' & z' & w' & E & _ & _).
      cbn [map app runOps use1]. rewrite (E fuel H1). pose proof (next_none src fuel s z w s' z' w' (E fuel H1)) as L.
      pose proof (run_dead src fuels s' z' w' L) as Q.
      destruct (runOps (use1 src) (map UNext fuels) (s', (z', w'))) as [rs st]. cbn in Q |- *. subst rs.
      replace (List.length fuels) with (List.length (repeat (@Ok (option T) None) (List.length fuels))) at 2 by apply repeat_length.
      rewrite firstn_all. reflexivity.
    - inversion H as [|? ? H1 H2]; subst. destruct (Y w) as (s' & z' & w' & E & _ & Y').
      cbn [map app runOps use1 List.length]. rewrite (E fuel H1). cbn [hd_error].
      specialize (IH fuels s' z' w' Y' H2). destruct (runOps (use1 src) (map UNext fuels) (s', (z', w'))) as [rs st].
      cbn [fst] in IH |- *. cbn [firstn]. apply (f_equal (cons (Ok (Some x)))). rewrite IH.
      clear. rewrite !firstn_app, map_length. f_equal. cbn [repeat]. rewrite repeat_cons, firstn_app, repeat_length.
      replace (List.length fuels - List.length l - List.length fuels)%nat with 0%nat by lia. rewrite app_nil_r. reflexivity.
  Qed.
End Alone.

(** ** Pages *)

Section Pages.
  Context {S W T : Type} (src : source S W T) (D : S -> list T -> Z -> Prop).
  Hypothesis del : delivers (fun _ : W => tt) src D.
  Hypothesis over : staysOver src D 0.
  Local Notation limited k := (mkStream true [OLimit (Z.of_nat k)] true).

  Lemma slice_step fuel acc st : sliceLoop src (Datatypes.S fuel) acc st =
    match Next_ src (Datatypes.S fuel) st with
    | (Ok None, st') => (Ok acc, st')
    | (Ok (Some v), st') => sliceLoop src fuel (acc ++ [v]) st'
    | (Panic e, st') => (Panic e, st')
    | (Diverge, st') => (Diverge, st')
    end.
  Proof. cbn [sliceLoop]. unfold xbind. destruct (Next_ src (Datatypes.S fuel) st) as [[[v|]|e|] st']; reflexivity. Qed.

  Lemma next_over k fuel z b w : D z [] b -> exists s' z' w' b',
    Next_ src (Datatypes.S fuel) (limited k, (z, w)) = (Ok None, (s', (z', w'))) /\ D z' [] b'.
  Proof.
    intros HD. unfold Next_, xbind at 1, xget. cbn [fst live nextLoop]. unfold xbind at 1, onSource at 1.
    destruct (over z b w HD) as (z1 & w1 & b1 & -> & HD1 & _). exists (mkStream false [] true), z1, w1, b1. split; [reflexivity|exact HD1].
  Qed.
  Lemma next_limited k fuel x l z b w : D z (x :: l) b -> exists s' z' w',
    Next_ src (Datatypes.S fuel) (limited k, (z, w)) =
      (Ok match k with O => None | _ => Some x end, (s', (z', w'))) /\ D z' l b /\
    s' = match k with O => mkStream false [] true | Datatypes.S k => limited k end.
  Proof.
    intros HD. unfold Next_, xbind at 1, xget. cbn [fst live nextLoop]. unfold xbind at 1, onSource at 1.
    destruct (del_next _ _ _ del z x l b w HD) as (z1 & w1 & -> & HD1 & _). destruct k as [|k].
    - eexists _, z1, w1. split; [reflexivity|]. split; [exact HD1|reflexivity].
    - eexists _, z1, w1. split; [|split; [exact HD1|reflexivity]]. unfold xbind at 1, runStages at 1. cbn [ops stages live hasPred].
      assert (G : (Z.of_nat (Datatypes.S k) >? 0) = true) by (apply Z.gtb_lt; lia). rewrite G. cbn [xbind xget xput snd app stages xret].
      unfold xbind, xget, xput, xret. cbn [snd app]. replace (Z.of_nat (Datatypes.S k) - 1) with (Z.of_nat k) by lia. reflexivity.
  Qed.

  Lemma page_loop k : forall l fuel acc z b w, D z l b -> (k + 1 < fuel)%nat -> exists s' z' w' b',
    sliceLoop src fuel acc (limited k, (z, w)) = (Ok (acc ++ firstn k l), (s', (z', w'))) /\ D z' (skipn (k + 1) l) b'.
  Proof.
    induction k as [|k IH]; intros l fuel acc z b w HD Hf; (destruct fuel as [|fuel]; [lia|]); rewrite slice_step; (destruct l as [|x l];
      [edestruct next_over as (s1 & z1 & w1 & b1 & E1 & HD1); [exact HD|]; rewrite E1; exists s1, z1, w1, b1;
       rewrite firstn_nil, skipn_nil, app_nil_r; split; [reflexivity|exact HD1]|]);
      edestruct next_limited as (s1 & z1 & w1 & E1 & HD1 & Es); try exact HD; rewrite E1.
    - exists s1, z1, w1, b. cbn [firstn]. rewrite app_nil_r. split; [reflexivity|exact HD1].
    - subst s1. destruct (IH l fuel (acc ++ [x]) z1 b w1 HD1 ltac:(lia)) as (s' & z' & w' & b' & E & HD').
      exists s', z', w', b'. rewrite E, <- app_assoc. split; [reflexivity|exact HD'].
  Qed.

  Lemma page_ok n l fuel z b w : 0 <= n -> D z l b -> (Z.to_nat n + 1 < fuel)%nat -> exists z' w' b',
    page src fuel n (z, w) = (Ok (firstn (Z.to_nat n) l), (z', w')) /\ D z' (skipn (Z.to_nat n + 1) l) b'.
  Proof.
    intros Hn HD Hf. unfold page, xbind, Limit. replace (n <? 0) with false by lia. cbn.
    destruct (page_loop (Z.to_nat n) l fuel [] z b w HD Hf) as (s' & z' & w' & b' & E & HD'). rewrite Z2Nat.id in E by exact Hn.
    unfold Slice. rewrite E. exists z', w', b'. split; [reflexivity|exact HD'].
  Qed.

  Lemma pages_ok n fuel k : 0 <= n -> (Z.to_nat n + 1 < fuel)%nat -> forall l z b w, D z l b -> exists z' w',
    pages src fuel n k (z, w) = (Ok (gappyPages (Z.to_nat n) k l), (z', w')).
  Proof.
    intros Hn Hf. induction k as [|k IH]; intros l z b w HD; [exists z, w; reflexivity|].
    destruct (page_ok n l fuel z b w Hn HD Hf) as (z1 & w1 & b1 & E & HD1). destruct (IH _ z1 b1 w1 HD1) as (z2 & w2 & E2).
    exists z2, w2. cbn [pages gappyPages]. unfold xbind. rewrite E, E2. reflexivity.
  Qed.
End Pages.

(** ** Sources *)

Lemma slice_staysOver {W T} (a : list T) m : staysOver (W := W) (sliceSource a) (DSlice a) m.
Proof.
  intros s b w H. destruct (del_end _ _ _ (slice_delivers (fun _ : W => tt) a) s b w H) as (s' & w' & E & _).
  assert (s' = s) as ->. { cbn in E. destruct (s =? zlen a); [injection E as <- <-; reflexivity|]. destruct (zget a s); discriminate. }
  exists s, w', b. split; [exact E|]. split; [exact H|]. lia.
Qed.
