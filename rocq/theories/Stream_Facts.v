(** Facts about stream used by its properties. *)
From Coq Require Import Lia.
From Verif Require Import Base Arr Exn Stream_Model Stream_Spec Stream_Proofs Stream_Den Stream_Sources Stream_Drain.
Local Open Scope string_scope.
Local Open Scope list_scope.
Local Open Scope Z_scope.

(** ** After the end *)
Lemma next_dead {W S T} (src : source S W T) fuel s z w : live s = false ->
  Next_ src fuel (s, (z, w)) = (Ok None, (mkStream false [] (hasPred s), (z, w))).
Proof. intros H. unfold Next_, xbind, xget. cbn [fst]. rewrite H. reflexivity. Qed.

Lemma nextLoop_none {W S T} (src : source S W T) fuel : forall s z w s' z' w',
  nextLoop src fuel (s, (z, w)) = (Ok None, (s', (z', w'))) -> live s' = false.
Proof.
  induction fuel as [|fuel IH]; intros s z w s' z' w' E; [discriminate|]. cbn [nextLoop] in E. unfold xbind at 1, onSource at 1 in E.
  destruct (sNext src (z, w)) as [[[v|]|e|] [z1 w1]]; try discriminate.
  - unfold xbind at 1 in E. destruct (runStages v (s, (z1, w1))) as [[[x| |]|e|] [s2 [z2 w2]]]; try discriminate.
    + eapply IH; eassumption.
    + unfold xbind, clear, xret in E. injection E as <- <- <-. reflexivity.
  - unfold xbind, clear, xret in E. injection E as <- <- <-. reflexivity.
Qed.
Lemma next_none {W S T} (src : source S W T) fuel s z w s' z' w' :
  Next_ src fuel (s, (z, w)) = (Ok None, (s', (z', w'))) -> live s' = false.
Proof.
  unfold Next_, xbind at 1, xget. cbn [fst]. destruct (live s); [apply nextLoop_none|].
  unfold xbind, clear, xret. intros E. injection E as <- <- <-. reflexivity.
Qed.
Lemma nexts_dead {W S T} (src : source S W T) fuels : forall s z w, live s = false ->
  exists s', nexts src fuels (s, (z, w)) = (Ok (map (fun _ => None) fuels), (s', (z, w))) /\ live s' = false.
Proof.
  induction fuels as [|fuel fuels IH]; intros s z w H; [exists s; auto|].
  destruct (IH (mkStream false [] (hasPred s)) z w eq_refl) as (s' & E & L'). exists s'. split; [|exact L'].
  cbn [nexts]. unfold xbind. rewrite next_dead by exact H. rewrite E. reflexivity.
Qed.

(** ** Sources without end *)
Lemma endless_nexts {W O S T} (obs : W -> O) (src : source S W T) P f : endless obs src P f ->
  forall fuels, Forall (fun n => (0 < n)%nat) fuels -> forall z k w, P z k -> exists z' w',
  nexts src fuels (New, (z, w)) = (Ok (map Some (prefix f k (List.length fuels))), (New, (z', w'))) /\
  P z' (k + List.length fuels)%nat /\ obs w' = obs w.
Proof.
  intros H. induction 1 as [|fuel fuels Hf HF IH]; intros z k w HP.
  - exists z, w. cbn. rewrite Nat.add_0_r. auto.
  - destruct (el_next _ _ _ _ H z k w HP) as (z1 & w1 & E1 & P1 & O1).
    destruct (IH z1 (Datatypes.S k) w1 P1) as (z2 & w2 & E2 & P2 & O2). exists z2, w2.
    cbn [nexts List.length]. unfold xbind at 1. destruct fuel as [|fuel]; [lia|].
    assert (EN : Next_ src (Datatypes.S fuel) (New, (z, w)) = (Ok (Some (f k)), (New, (z1, w1)))).
    { unfold Next_, xbind at 1, xget. cbn [fst live New nextLoop]. unfold xbind at 1, onSource. rewrite E1. reflexivity. }
    rewrite EN. unfold xbind. rewrite E2. split; [reflexivity|]. split; [|congruence]. now rewrite <- Nat.add_succ_comm.
Qed.

(** A Range that never ends. *)
Lemma range_endless {W O} (obs : W -> O) t start e s : 0 < bits t -> s <> 0 ->
  (s > 0 /\ e = tmax t) \/ (s < 0 /\ e = tmin t) ->
  endless obs (intSource (W := W) t)
    (fun i k => inf i = false /\ end_ i = e /\ step i = s /\ cur i = wrap t (start + Z.of_nat k * s)) (fun k => wrap t (start + Z.of_nat k * s)).
Proof.
  intros Ht Hs He. split.
  - intros [e' s' c f] k w (Hf & He' & Hs' & Hc). cbn [inf end_ step cur] in *. subst.
    cbn [intSource sNext cur end_ step inf negb andb]. pose proof (wrap_in t Ht (start + Z.of_nat k * s)) as HW. unfold inType in HW.
    replace ((s >? 0) && (_ >? e) || (s <? 0) && (_ <? e)) with false by lia.
    eexists _, w. split; [reflexivity|]. split; [|reflexivity]. cbn [inf end_ step cur]. repeat split.
    rewrite wrap_add by exact Ht. f_equal. lia.
  - intros [e' s' c f] k n w (Hf & He' & Hs' & Hc) Hn. cbn [inf end_ step cur] in *. subst.
    destruct (el_skip _ _ _ _ (sequence_endless obs t Ht start s) (mkInt 0 s (wrap t (start + Z.of_nat k * s)) true) k n w (conj eq_refl (conj eq_refl eq_refl)) Hn)
      as (r & z' & w' & E & (_ & _ & HC) & HO).
    cbn [intSource sSkip cur end_ step inf] in *. injection E as <- <- <-. cbn [cur] in HC.
    do 3 eexists. split; [reflexivity|]. split; [|reflexivity]. cbn [inf end_ step cur]. auto.
Qed.

(** A Range whose last number plus step is outside the type. *)
Lemma wrap_over t x : 0 < bits t -> tmax t < x <= tmax t + 2 ^ bits t -> wrap t x = x - 2 ^ bits t.
Proof.
  intros Ht H. pose proof (span t Ht). pose proof (wrap_shift t Ht (x - 2 ^ bits t) 1) as E. rewrite Z.mul_1_l in E.
  replace (x - 2 ^ bits t + 2 ^ bits t) with x in E by lia. rewrite E. apply wrap_id; [exact Ht|]. unfold inType. lia.
Qed.
Lemma wrap_under t x : 0 < bits t -> tmin t - 2 ^ bits t <= x < tmin t -> wrap t x = x + 2 ^ bits t.
Proof.
  intros Ht H. pose proof (span t Ht). pose proof (wrap_shift t Ht (x + 2 ^ bits t) (-1)) as E.
  replace (x + 2 ^ bits t + -1 * 2 ^ bits t) with x in E by lia. rewrite E. apply wrap_id; [exact Ht|]. unfold inType. lia.
Qed.

Lemma tmin_tmax t : 0 < bits t -> tmin t <= 0 <= tmax t.
Proof.
  intros Ht. unfold tmin, tmax. assert (0 < 2 ^ (bits t - 1)) by (apply Z.pow_pos_nonneg; lia). pose proof (pow_pos t Ht).
  destruct (signed t); lia.
Qed.

Lemma range_overflow_run {W} t (w : W) : 0 < bits t -> forall n c e s fuels, inType t c -> inType t e -> inType t s -> s <> 0 ->
  range_count c e s = S n -> ~ inType t (c + Z.of_nat (S n) * s) -> List.length fuels = S (S n) -> Forall (fun k => (0 < k)%nat) fuels ->
  exists x z', nexts (intSource t) fuels (New, (mkInt e s c false, w)) = (Ok (map Some (progression c s (S n) ++ [x])), (New, (z', w))).
Proof.
  intros Ht. induction n as [|n IH]; intros c e s fuels Hc He Hs Hs0 HR Ho Hl HF.
  - assert (HZ : ~ (s > 0 /\ c > e \/ s < 0 /\ c < e)) by (rewrite <- count_zero by exact Hs0; lia).
    destruct fuels as [|f1 [|f2 [|? ?]]]; try discriminate. inversion HF as [|? ? H1 HF1]; subst. inversion HF1 as [|? ? H2 _]; subst.
    destruct f1 as [|f1]; [lia|]. destruct f2 as [|f2]; [lia|].
    assert (Step : forall f c', ~ (s > 0 /\ c' > e \/ s < 0 /\ c' < e) ->
      Next_ (intSource t) (S f) (New, (mkInt e s c' false, w)) = (Ok (Some c'), (New, (mkInt e s (wrap t (c' + s)) false, w)))).
    { intros f c' H. unfold Next_, xbind at 1, xget. cbn [fst live New nextLoop]. unfold xbind at 1, onSource.
      cbn [intSource sNext cur end_ step inf negb andb].
      replace ((s >? 0) && (c' >? e) || (s <? 0) && (c' <? e)) with false by lia. reflexivity. }
    exists (wrap t (c + s)). eexists. cbn [nexts]. unfold xbind at 1. rewrite Step by exact HZ. unfold xbind at 1. unfold xbind at 1.
    rewrite Step.
    + rewrite progression_S. reflexivity.
    + replace (c + Z.of_nat 1 * s) with (c + s) in Ho by lia.
      pose proof (span t Ht). pose proof (pow_pos t Ht). pose proof (tmin_tmax t Ht). unfold inType in *. destruct (Z_lt_ge_dec 0 s).
      * rewrite wrap_over by (try exact Ht; lia). lia.
      * rewrite wrap_under by (try exact Ht; lia). lia.
  - assert (HZ : ~ (s > 0 /\ c > e \/ s < 0 /\ c < e)) by (rewrite <- count_zero by exact Hs0; lia).
    pose proof (count_S c e s (S n) Hs0 HR) as HR'.
    assert (HZ' : ~ (s > 0 /\ c + s > e \/ s < 0 /\ c + s < e)) by (rewrite <- count_zero by exact Hs0; lia).
    assert (Hc' : inType t (c + s)) by (unfold inType in *; lia).
    destruct fuels as [|f fuels]; [discriminate|]. inversion HF as [|? ? Hf HF']; subst. destruct f as [|f]; [lia|].
    destruct (IH (c + s) e s fuels Hc' He Hs Hs0 HR') as (x & z' & E).
    { replace (c + s + Z.of_nat (S n) * s) with (c + Z.of_nat (S (S n)) * s) by lia. exact Ho. }
    { now injection Hl. } { exact HF'. }
    exists x, z'. cbn [nexts]. unfold xbind at 1.
    assert (EN : Next_ (intSource t) (S f) (New, (mkInt e s c false, w)) = (Ok (Some c), (New, (mkInt e s (c + s) false, w)))).
    { unfold Next_, xbind at 1, xget. cbn [fst live New nextLoop]. unfold xbind at 1, onSource. cbn [intSource sNext cur end_ step inf negb andb].
      replace ((s >? 0) && (c >? e) || (s <? 0) && (c <? e)) with false by lia. rewrite wrap_id by assumption. reflexivity. }
    rewrite EN. unfold xbind. rewrite E. rewrite (progression_S c). reflexivity.
Qed.

(** ** The log of any run *)
Section Log.
  Context {W S T : Type} (log : W -> list (event T)) (src : source S W T).
  Hypothesis HL : logs_pulls log src.

  (** The ops against the labelled calls: Skips may be missing. *)
  Inductive fits : list (nat * kind) -> list (op W T) -> Prop :=
  | fi_nil : fits [] []
  | fi_map i f r s : logs_calls log i RVal f -> fits r s -> fits ((i, KMap) :: r) (OMap f :: s)
  | fi_filter i p r s : logs_calls log i RBool p -> fits r s -> fits ((i, KFilter) :: r) (OPred p :: s)
  | fi_peek i c r s : logs_calls log i (fun _ => RUnit) c -> fits r s -> fits ((i, KPeek) :: r) (OPeek c :: s)
  | fi_skip i n r s : fits r s -> fits ((i, KSkip) :: r) (OSkip n :: s)
  | fi_gone i r s : fits r s -> fits ((i, KSkip) :: r) s
  | fi_limit i n r s : fits r s -> fits ((i, KLimit) :: r) (OLimit n :: s).

  Definition fateOf (r : outcome (verdict T)) : fate T :=
    match r with Ok (Emit v) => Out v | Ok Reject => Back | Ok Stop => Halted | Panic e => Failed (Panic e) | Diverge => Failed Diverge end.

  Lemma stages_log iks todo : fits iks todo -> forall done v w r opl' w',
    stages done todo v (done ++ todo, w) = (r, (opl', w')) ->
    exists es todo', visit iks v es (fateOf r) /\ log w' = log w ++ es /\ opl' = done ++ todo' /\ fits iks todo'.
  Proof.
    induction 1 as [|i f r s Hf H IH|i f r s Hf H IH|i f r s Hf H IH|i n r s H IH|i r s H IH|i n r s H IH]; intros done v w x opl' w' E.
    - cbn in E. injection E as <- <- <-. exists [], []. rewrite app_nil_r. repeat split; constructor.
    - cbn [stages] in E. unfold xbind, onWorld in E. destruct (f v w) as [r1 w1] eqn:E1. pose proof (Hf _ _ _ _ E1) as O1. destruct r1 as [v'|e|].
      + replace (done ++ OMap f :: s) with ((done ++ [OMap f]) ++ s) in E by (rewrite <- app_assoc; reflexivity).
        destruct (IH _ _ _ _ _ _ E) as (es & todo' & V & HO & -> & HF). exists (ECall i v (RVal v') :: es), (OMap f :: todo').
        rewrite HO, O1, <- !app_assoc. repeat split; [now constructor|now constructor].
      + injection E as <- <- <-. exists [ECall i v RFail], (OMap f :: s). repeat split; auto; constructor; auto; discriminate.
      + injection E as <- <- <-. exists [ECall i v RFail], (OMap f :: s). repeat split; auto; constructor; auto; discriminate.
    - cbn [stages] in E. unfold xbind, onWorld in E. destruct (f v w) as [r1 w1] eqn:E1. pose proof (Hf _ _ _ _ E1) as O1. destruct r1 as [[]|e|].
      + replace (done ++ OPred f :: s) with ((done ++ [OPred f]) ++ s) in E by (rewrite <- app_assoc; reflexivity).
        destruct (IH _ _ _ _ _ _ E) as (es & todo' & V & HO & -> & HF). exists (ECall i v (RBool true) :: es), (OPred f :: todo').
        rewrite HO, O1, <- !app_assoc. repeat split; [now constructor|now constructor].
      + injection E as <- <- <-. exists [ECall i v (RBool false)], (OPred f :: s). repeat split; auto; constructor; auto.
      + injection E as <- <- <-. exists [ECall i v RFail], (OPred f :: s). repeat split; auto; constructor; auto; discriminate.
      + injection E as <- <- <-. exists [ECall i v RFail], (OPred f :: s). repeat split; auto; constructor; auto; discriminate.
    - cbn [stages] in E. unfold xbind, onWorld in E. destruct (f v w) as [r1 w1] eqn:E1. pose proof (Hf _ _ _ _ E1) as O1. destruct r1 as [v'|e|].
      + replace (done ++ OPeek f :: s) with ((done ++ [OPeek f]) ++ s) in E by (rewrite <- app_assoc; reflexivity).
        destruct (IH _ _ _ _ _ _ E) as (es & todo' & V & HO & -> & HF). exists (ECall i v RUnit :: es), (OPeek f :: todo').
        rewrite HO, O1, <- !app_assoc. repeat split; [now constructor|now constructor].
      + injection E as <- <- <-. exists [ECall i v RFail], (OPeek f :: s). repeat split; auto; constructor; auto; discriminate.
      + injection E as <- <- <-. exists [ECall i v RFail], (OPeek f :: s). repeat split; auto; constructor; auto; discriminate.
    - cbn [stages] in E. destruct (n >? 0).
      + unfold xbind, xget, xput, xret in E. cbn [snd] in E. injection E as <- <- <-. exists [], (OSkip (n - 1) :: s).
        rewrite app_nil_r. split; [apply vi_skipped|]. repeat split. now apply fi_skip.
      + replace (done ++ OSkip n :: s) with ((done ++ [OSkip n]) ++ s) in E by (rewrite <- app_assoc; reflexivity).
        destruct (IH _ _ _ _ _ _ E) as (es & todo' & V & HO & -> & HF). exists es, (OSkip n :: todo'). rewrite <- app_assoc.
        split; [now apply vi_skip|]. repeat split; [exact HO|]. now apply fi_skip.
    - destruct (IH _ _ _ _ _ _ E) as (es & todo' & V & HO & -> & HF). exists es, todo'. split; [now apply vi_skip|]. repeat split; [exact HO|]. now apply fi_gone.
    - cbn [stages] in E. destruct (n >? 0).
      + unfold xbind, xget, xput in E. cbn [snd] in E.
        replace (done ++ OLimit (n - 1) :: s) with ((done ++ [OLimit (n - 1)]) ++ s) in E by (rewrite <- app_assoc; reflexivity).
        destruct (IH _ _ _ _ _ _ E) as (es & todo' & V & HO & -> & HF). exists es, (OLimit (n - 1) :: todo'). rewrite <- app_assoc.
        split; [now apply vi_limit|]. repeat split; [exact HO|]. now apply fi_limit.
      + injection E as <- <- <-. exists [], (OLimit n :: s). rewrite app_nil_r. split; [apply vi_stopped|]. repeat split. now apply fi_limit.
  Qed.

  Lemma nextLoop_log iks fuel : forall opl hp z w r s' z' w', fits iks opl ->
    nextLoop src fuel (mkStream true opl hp, (z, w)) = (r, (s', (z', w'))) ->
    exists es, turn iks es r /\ log w' = log w ++ es /\ (live s' = true -> fits iks (ops s')).
  Proof.
    induction fuel as [|fuel IH]; intros opl hp z w r s' z' w' HF E.
    { cbn in E. injection E as <- <- <- <-. exists []. rewrite app_nil_r. repeat split; auto. apply tu_source. discriminate. }
    cbn [nextLoop] in E. unfold xbind at 1, onSource at 1 in E. destruct (sNext src (z, w)) as [r1 [z1 w1]] eqn:E1.
    pose proof (proj1 HL _ _ _ _ _ E1) as O1. destruct r1 as [[v|]|e|].
    - unfold xbind at 1, runStages in E. cbn [Stream_Model.ops live hasPred] in E.
      destruct (stages [] opl v (opl, w1)) as [d [opl2 w2]] eqn:E2.
      destruct (stages_log iks opl HF [] v w1 d opl2 w2 E2) as (es & opl3 & V & O2 & -> & F2). cbn [app] in *.
      assert (O12 : log w2 = log w ++ (EPull v :: es)) by (rewrite O2, O1, <- app_assoc; reflexivity).
      destruct d as [[x| |]|e|]; cbn [fateOf] in V.
      + injection E as <- <- <- <-. exists (EPull v :: es). repeat split; auto. now apply tu_out.
      + destruct (IH opl3 hp z1 w2 r s' z' w' F2 E) as (es' & HT & HO & F'). exists (EPull v :: es ++ es').
        split; [now apply tu_back|]. split; [|exact F']. rewrite HO, O12, <- app_assoc. reflexivity.
      + unfold xbind, clear, xret in E. injection E as <- <- <- <-. exists (EPull v :: es). repeat split; [now apply tu_stop|exact O12|discriminate].
      + injection E as <- <- <- <-. exists (EPull v :: es). repeat split; auto. now apply tu_fail.
      + injection E as <- <- <- <-. exists (EPull v :: es). repeat split; auto. now apply tu_fail.
    - unfold xbind, clear, xret in E. injection E as <- <- <- <-. exists []. repeat split; [apply tu_end|exact O1|discriminate].
    - injection E as <- <- <- <-. exists []. repeat split; auto. apply tu_source. discriminate.
    - injection E as <- <- <- <-. exists []. repeat split; auto. apply tu_source. discriminate.
  Qed.

  Lemma next_log iks fuel s z w r s' z' w' : (live s = true -> fits iks (ops s)) ->
    Next_ src fuel (s, (z, w)) = (r, (s', (z', w'))) ->
    exists es, turn iks es r /\ log w' = log w ++ es /\ (live s' = true -> fits iks (ops s')).
  Proof.
    intros HF E. destruct s as [[] opl hp].
    - exact (nextLoop_log iks fuel opl hp z w r s' z' w' (HF eq_refl) E).
    - rewrite next_dead in E by reflexivity. injection E as <- <- <- <-. exists []. rewrite app_nil_r. repeat split; [apply tu_end|discriminate].
  Qed.

  Lemma nexts_log iks fuels : forall s z w rs s' z' w', (live s = true -> fits iks (ops s)) ->
    nexts src fuels (s, (z, w)) = (Ok rs, (s', (z', w'))) ->
    exists ess, Forall2 (fun es r => turn iks es (Ok r)) ess rs /\ log w' = log w ++ List.concat ess /\ (live s' = true -> fits iks (ops s')).
  Proof.
    induction fuels as [|fuel fuels IH]; intros s z w rs s' z' w' HF E.
    { injection E as <- <- <- <-. exists []. cbn. rewrite app_nil_r. auto. }
    cbn [nexts] in E. unfold xbind at 1 in E. destruct (Next_ src fuel (s, (z, w))) as [r1 [s1 [z1 w1]]] eqn:E1.
    destruct (next_log iks fuel s z w r1 s1 z1 w1 HF E1) as (es & HT & HO & F1). destruct r1 as [v|e|]; try discriminate.
    unfold xbind in E. destruct (nexts src fuels (s1, (z1, w1))) as [r2 [s2 [z2 w2]]] eqn:E2. destruct r2 as [vs|e|]; try discriminate.
    injection E as <- <- <- <-. destruct (IH s1 z1 w1 vs s2 z2 w2 F1 E2) as (ess & HT2 & HO2 & F2).
    exists (es :: ess). split; [now constructor|]. split; [|exact F2]. cbn [List.concat]. now rewrite HO2, HO, <- app_assoc.
  Qed.

  Lemma fits_snoc iks opl ik o : fits iks opl -> fits [ik] [o] -> fits (iks ++ [ik]) (opl ++ [o]).
  Proof. intros H H1. induction H; cbn; try (constructor; assumption); assumption. Qed.
  Lemma fits_gone iks opl i : fits iks opl -> fits (iks ++ [(i, KSkip)]) opl.
  Proof. intros H. induction H; cbn; constructor; try assumption. constructor. Qed.

  Lemma calls_log cs iks : Forall2 (logs log) cs iks -> forall iks0 s z w s' z' w', live s = true -> fits iks0 (ops s) ->
    calls src cs (s, (z, w)) = (Ok tt, (s', (z', w'))) -> fits (iks0 ++ iks) (ops s') /\ log w' = log w.
  Proof.
    induction 1 as [|c [i k] cs iks Hc HF IH]; intros iks0 s z w s' z' w' HLi HG E.
    { injection E as <- <- <-. rewrite app_nil_r. auto. }
    cbn [calls] in E. unfold xbind at 1 in E.
    replace (iks0 ++ (i, k) :: iks) with ((iks0 ++ [(i, k)]) ++ iks) by (rewrite <- app_assoc; reflexivity).
    inversion Hc; subst; cbn [call] in E.
    - apply (IH (iks0 ++ [(i, KMap)])) in E; [exact E|exact HLi|]. apply fits_snoc; [exact HG|]. constructor; [assumption|constructor].
    - apply (IH (iks0 ++ [(i, KFilter)])) in E; [exact E|exact HLi|]. apply fits_snoc; [exact HG|]. constructor; [assumption|constructor].
    - unfold Skip in E. destruct (n <? 0); [discriminate|]. destruct (n =? 0).
      + apply (IH (iks0 ++ [(i, KSkip)])) in E; [exact E|exact HLi|]. now apply fits_gone.
      + unfold xbind at 1, xget at 1 in E. cbn [fst] in E. rewrite HLi in E. destruct (negb (hasPred s)).
        * unfold xbind at 1, onSource in E. destruct (sSkip src n (z, w)) as [[q|e|] [z1 w1]] eqn:Ek; try discriminate.
          pose proof (proj2 HL _ _ _ _ _ _ Ek) as Ok1. unfold xret in E.
          apply (IH (iks0 ++ [(i, KSkip)])) in E; [|exact HLi|now apply fits_gone].
          destruct E as (E1 & E3). split; [exact E1|congruence].
        * apply (IH (iks0 ++ [(i, KSkip)])) in E; [exact E|exact HLi|]. apply fits_snoc; [exact HG|]. constructor. constructor.
    - unfold Limit in E. destruct (n <? 0); [discriminate|].
      apply (IH (iks0 ++ [(i, KLimit)])) in E; [exact E|exact HLi|]. apply fits_snoc; [exact HG|]. constructor. constructor.
    - apply (IH (iks0 ++ [(i, KPeek)])) in E; [exact E|exact HLi|]. apply fits_snoc; [exact HG|]. constructor; [assumption|constructor].
  Qed.
End Log.
