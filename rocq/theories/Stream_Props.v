(** Properties of stream (C40-C49). *)
From Coq Require Import Lia.
From Verif Require Import Base Arr Exn Iter_Model Iter_Spec Stream_Model Stream_Spec Stream_Den Stream_Sources Stream_Drain Stream_Facts.
Local Open Scope string_scope.
Local Open Scope list_scope.
Local Open Scope Z_scope.

(** ** C40: pipelines compute the list pipeline *)

(** For every source that delivers a finite list [ls] and has room for the
    Skips that are asked for, and every sequence of builder calls. *)
Theorem C40_pipeline_partial {W O S T} (obs : W -> O) (src : source S W T) D cs gs z ls b :
  delivers obs src D -> Forall2 (stands obs) cs gs -> D z ls b -> skips gs <= b ->
  forall w, exists s' z' w',
    calls src cs (New, (z, w)) = (Ok tt, (s', (z', w'))) /\ obs w' = obs w /\
    yields obs src (Datatypes.S (List.length ls)) s' z' (pipeline gs ls).
Proof.
  intros L HS HD Hb w.
  destruct (den_calls obs src D L cs gs HS New z ls b (List.length ls) w (den_new obs D z ls b _ HD (le_n _)) eq_refl Hb)
    as (s' & z' & w' & E & HD' & _ & HO).
  exists s', z', w'. split; [exact E|]. split; [exact HO|]. eapply den_yields; eassumption.
Qed.
Print Assumptions C40_pipeline_partial.

(** In one piece: the builder calls and then Slice. *)
Theorem C40_slice_partial {W O S T} (obs : W -> O) (src : source S W T) D cs gs z ls b :
  delivers obs src D -> Forall2 (stands obs) cs gs -> D z ls b -> skips gs <= b ->
  forall w fuel, (Datatypes.S (List.length ls) < fuel)%nat ->
  exists s' z' w',
    xbind (calls src cs) (fun _ => Slice src fuel) (New, (z, w)) = (Ok (pipeline gs ls), (s', (z', w'))) /\ obs w' = obs w.
Proof.
  intros L HS HD Hb w fuel Hf. assert (L' : delivers_upd obs (fun _ o => o) src D) by (destruct L as [X1 X2 X3]; split; assumption).
  destruct (calls_slice obs _ src D cs (map hush gs) z ls b w fuel L' (stands_hush obs cs gs HS) HD) as (s' & z' & w' & E & HO);
    [now rewrite plan_hush|exact Hf|]. rewrite plan_hush in E. exists s', z', w'. split; [exact E|].
  rewrite HO. destruct (eff_hush (O := O) gs false) as (gs' & -> & _). clear.
  generalize (skipn (Z.to_nat (Stream_Proofs.direct false (map (@hush O T) gs))) ls) as l, (obs w) as o. intros l. revert gs'.
  induction l as [|v l IH]; intros gs' o; [reflexivity|]. cbn [drain]. destruct (pass_hush gs' v o) as (d & gs'' & -> & _).
  destruct d; [|apply IH|reflexivity]. specialize (IH gs'' o). now destruct (drain _ _ l o) as [[? ?] ?].
Qed.
Print Assumptions C40_slice_partial.

(** Builder calls and calls of Next in any order. *)
Theorem C40_interleaved_partial {W O S T} (obs : W -> O) (src : source S W T) D acts sacts z ls b :
  delivers obs src D -> Forall2 (astands_for obs) acts sacts -> D z ls b -> askips sacts <= b -> no_skip_after_end false sacts ls ->
  forall w fuel, (List.length ls < fuel)%nat -> exists s' z' w',
    play src fuel acts (New, (z, w)) = (Ok (splay sacts ls), (s', (z', w'))) /\ obs w' = obs w.
Proof.
  intros L HS HD Hb HN w fuel Hf.
  apply (play_ok obs src D L acts sacts HS New z ls b (List.length ls) false w fuel (den_new obs D z ls b _ HD (le_n _)));
    [discriminate|assumption|assumption|exact Hf].
Qed.
Print Assumptions C40_interleaved_partial.

(** What is missing.  The index of a slice source overflows: Skip(1) and
    Skip(MaxInt) on one element, then Slice panics where it should give []. *)
Definition quiet {A B} (f : A -> B) : A -> X unit B := fun a w => (Ok (f a), w).
Theorem C40_skip_overflow_refuted :
  exists (ls : list Z) cs gs, Forall2 (stands (fun w : unit => w)) cs gs /\ Forall (fun g => match g with SSkip n => n <= maxInt | _ => True end) gs /\
    pipeline gs ls = [] /\
    exists st, xbind (calls (sliceSource ls) cs) (fun _ => Slice (sliceSource ls) 5) (New, (0, tt)) = (Panic "index out of range", st).
Proof.
  exists [7], [BSkip 1; BSkip maxInt], [SSkip 1; SSkip maxInt]. split; [|split; [|split]].
  - repeat constructor; unfold maxInt; lia.
  - repeat constructor; unfold maxInt; lia.
  - reflexivity.
  - eexists. vm_compute. reflexivity.
Qed.
Print Assumptions C40_skip_overflow_refuted.

(** And Skip on a stream that Next has reported ended dereferences the nil
    source, unless a Filter or Limit was there. *)
Theorem C40_skip_after_end_refuted {W S T} (src : source S W T) fuel s z w st n :
  Next_ src fuel (s, (z, w)) = (Ok None, st) -> hasPred (fst st) = false -> 0 < n ->
  fst (Skip src n st) = Panic "invalid memory address or nil pointer dereference".
Proof.
  destruct st as [s' [z' w']]. intros E Hp Hn. cbn [fst] in Hp. apply next_none in E.
  unfold Skip. replace (n <? 0) with false by lia. replace (n =? 0) with false by lia.
  unfold xbind at 1, xget. cbn [fst]. rewrite Hp, E. reflexivity.
Qed.
Print Assumptions C40_skip_after_end_refuted.

Lemma quiet_answers {A B} (f : A -> B) : answers (fun w : unit => w) (quiet f) f.
Proof. intros a w. exists w. auto. Qed.

(** A pipeline with all five calls over a slice. *)
Definition ex_calls : list (build unit Z) :=
  [BPeek (quiet (fun _ => tt)); BSkip 1; BMap (quiet (fun x => x * 2)); BFilter (quiet (fun x => negb (x =? 6))); BSkip 1; BLimit 2].
Definition ex_stages : list (stage Z) := [SPeek; SSkip 1; SMap (fun x => x * 2); SFilter (fun x => negb (x =? 6)); SSkip 1; SLimit 2].
Lemma ex_stands : Forall2 (stands (fun w : unit => w)) ex_calls ex_stages.
Proof. repeat (constructor; [constructor; try apply quiet_answers; lia|]). constructor. Qed.
Example C40_example : exists st,
  xbind (calls (sliceSource [1; 2; 3; 4; 5; 6; 7]) ex_calls) (fun _ => Slice (sliceSource [1; 2; 3; 4; 5; 6; 7]) 20) (New, (0, tt)) =
    (Ok [8; 10], st).
Proof.
  destruct (C40_slice_partial (fun w : unit => w) _ _ ex_calls ex_stages 0 [1; 2; 3; 4; 5; 6; 7] 100
    (slice_delivers _ [1; 2; 3; 4; 5; 6; 7]) ex_stands) with (w := tt) (fuel := 20%nat) as (s' & z' & w' & E & _).
  - repeat split; cbn; unfold maxInt; lia.
  - cbn. lia.
  - cbn. lia.
  - eexists. exact E.
Qed.
Example C40_interleaved_example : exists st,
  play (sliceSource [1; 2; 3; 4; 5]) 9 [ANext; ABuild (BMap (quiet (fun x => x + 10))); ANext; ABuild (BSkip 2); ANext; ANext; ANext] (New, (0, tt)) =
    (Ok [Some 1; Some 12; Some 15; None; None], st).
Proof.
  destruct (C40_interleaved_partial (fun w : unit => w) _ _
    [ANext; ABuild (BMap (quiet (fun x => x + 10))); ANext; ABuild (BSkip 2); ANext; ANext; ANext]
    [SNext; SStage (SMap (fun x => x + 10)); SNext; SStage (SSkip 2); SNext; SNext; SNext] 0 [1; 2; 3; 4; 5] 100
    (slice_delivers _ [1; 2; 3; 4; 5])) with (w := tt) (fuel := 9%nat) as (s' & z' & w' & E & _).
  - repeat (constructor; [constructor; try (constructor; try apply quiet_answers; lia)|]). constructor.
  - repeat split; cbn; unfold maxInt; lia.
  - cbn. lia.
  - cbn. repeat split; try discriminate.
  - cbn. lia.
  - eexists. exact E.
Qed.

(** ** C41: terminal operations agree with the elements *)
Theorem C41_slice {W O S T} (obs : W -> O) (src : source S W T) n s z l : yields obs src n s z l ->
  forall w, exists s' z' w',
    (forall fuel, (n + List.length l < fuel)%nat -> Slice src fuel (s, (z, w)) = (Ok l, (s', (z', w')))) /\ obs w' = obs w.
Proof. intros H w. exact (slice_loop obs src n l s z H w []). Qed.
Theorem C41_count {W O S T} (obs : W -> O) (src : source S W T) n s z l : yields obs src n s z l ->
  forall w, exists s' z' w',
    (forall fuel, (n + List.length l < fuel)%nat -> Count src fuel (s, (z, w)) = (Ok (zlen l), (s', (z', w')))) /\ obs w' = obs w.
Proof. intros H w. exact (count_loop obs src n l s z H w 0). Qed.
(** The consumer sees each element once, in order: [u v] is what it does to the
    observed part of the world. *)
Theorem C41_collect {W O S T} (obs : W -> O) (src : source S W T) n s z l c u : yields obs src n s z l ->
  answers_upd obs c (fun _ => tt) u ->
  forall w, exists s' z' w',
    (forall fuel, (n + List.length l < fuel)%nat -> Collect src fuel c (s, (z, w)) = (Ok tt, (s', (z', w')))) /\
    obs w' = fold_left (fun o v => u v o) l (obs w).
Proof. intros H Hc. exact (collect_ok obs src c u Hc n l s z H). Qed.
Theorem C41_reduce {W O S T A} (obs : W -> O) (src : source S W T) n s z l (c : A -> T -> X W A) g u : yields obs src n s z l ->
  (forall a, answers_upd obs (c a) (g a) u) ->
  forall w a, exists s' z' w',
    (forall fuel, (n + List.length l < fuel)%nat -> Reduce src fuel a c (s, (z, w)) = (Ok (fold_left g l a), (s', (z', w')))) /\
    obs w' = fold_left (fun o v => u v o) l (obs w).
Proof. intros H Hc. exact (reduce_ok obs src c g u Hc n l s z H). Qed.
Theorem C41_all_any_none {W O S T} (obs : W -> O) (src : source S W T) n s z l p q : yields obs src n s z l -> answers obs p q ->
  forall w,
  (exists st, forall fuel, (n + List.length l < fuel)%nat -> All src fuel p (s, (z, w)) = (Ok (forallb q l), st)) /\
  (exists st, forall fuel, (n + List.length l < fuel)%nat -> Any src fuel p (s, (z, w)) = (Ok (existsb q l), st)) /\
  (exists st, forall fuel, (n + List.length l < fuel)%nat -> None_ src fuel p (s, (z, w)) = (Ok (negb (existsb q l)), st)).
Proof.
  intros H Hp w. split; [|split].
  - destruct (all_ok obs src p q (fun _ o => o) Hp n l s z H w) as (s' & z' & w' & E & _). eauto.
  - destruct (any_ok obs src p q (fun _ o => o) Hp n l s z H w) as (s' & z' & w' & E & _). eauto.
  - destruct (any_ok obs src p q (fun _ o => o) Hp n l s z H w) as (s' & z' & w' & E & _).
    eexists. intros fuel Hf. unfold None_, xbind. rewrite E by exact Hf. reflexivity.
Qed.
Theorem C41_first {W O S T} (obs : W -> O) (src : source S W T) n s z l : yields obs src n s z l ->
  forall w, exists st, forall fuel, (n <= fuel)%nat -> First src fuel (s, (z, w)) =
    (match l with [] => Panic "Stream.First: stream is empty" | x :: _ => Ok x end, st).
Proof.
  intros H w. destruct (yields_next obs src n s z l H w) as (s' & z' & w' & E & _).
  exists (s', (z', w')). intros fuel Hf. unfold First, xbind. rewrite E by exact Hf. now destruct l.
Qed.
Theorem C41_string {W O S T} (obs : W -> O) (src : source S W T) n s z l name sprint : yields obs src n s z l ->
  forall w, exists st, forall fuel, (n + List.length l < fuel)%nat ->
    String_ src fuel name sprint (s, (z, w)) = (Ok ("Stream[" ++ name ++ "]{" ++ joined sprint l ++ "}")%string, st).
Proof.
  intros H w. destruct (string_loop obs src sprint n l s z H w true ("Stream[" ++ name ++ "]{")%string) as (s' & z' & w' & E & _).
  eexists. intros fuel Hf. unfold String_, xbind. rewrite E by exact Hf. unfold xret. do 2 f_equal.
  rewrite <- !sapp_assoc. reflexivity.
Qed.
Print Assumptions C41_slice. Print Assumptions C41_count. Print Assumptions C41_collect. Print Assumptions C41_reduce.
Print Assumptions C41_all_any_none. Print Assumptions C41_first. Print Assumptions C41_string.

(** A stream that yields: the pipeline of C40, over a slice. *)
Lemma ex_yields : exists s z, yields (fun w : unit => w) (sliceSource [1; 2; 3; 4; 5; 6; 7]) 8 s z [8; 10].
Proof.
  destruct (C40_pipeline_partial (fun w : unit => w) _ _ ex_calls ex_stages 0 [1; 2; 3; 4; 5; 6; 7] 100
    (slice_delivers _ [1; 2; 3; 4; 5; 6; 7]) ex_stands) with (w := tt) as (s' & z' & w' & _ & _ & Y).
  - repeat split; cbn; unfold maxInt; lia.
  - cbn. lia.
  - exists s', z'. exact Y.
Qed.
(** Collect with a consumer that appends to a list kept in the world. *)
Example C41_collect_example : exists s z (src : source Z (list Z) Z), yields (fun w : list Z => w) src 4 s z [1; 2; 3] /\
  exists st, Collect src 9 (fun v w => (Ok tt, w ++ [v])) (s, (z, [])) = (Ok tt, (fst st, (snd st, [1; 2; 3]))).
Proof.
  destruct (C40_pipeline_partial (fun w : list Z => w) (sliceSource [1; 2; 3]) _ [] [] 0 [1; 2; 3] 100
    (slice_delivers _ [1; 2; 3]) (Forall2_nil _)) with (w := @nil Z) as (s' & z' & w' & _ & _ & Y).
  - repeat split; cbn; unfold maxInt; lia.
  - cbn. lia.
  - exists s', z', (sliceSource [1; 2; 3]). split; [exact Y|].
    destruct (C41_collect _ _ _ _ _ _ (fun v w => (Ok tt, w ++ [v])) (fun v l => l ++ [v]) Y) with (w := @nil Z) as (s2 & z2 & w2 & E & HO).
    { intros a w. eexists. split; reflexivity. }
    exists (s2, z2). cbn [fst snd]. rewrite E by (cbn; lia). cbn in HO. now rewrite HO.
Qed.

(** ** C42: short-circuiting terminals leave the rest *)
Theorem C42_any {W O S T} (obs : W -> O) (src : source S W T) n s z a x r p q u :
  yields obs src n s z (a ++ x :: r) -> answers_upd obs p q u -> existsb q a = false -> q x = true ->
  forall w, exists s' z' w',
    (forall fuel, (n + List.length (a ++ x :: r) < fuel)%nat -> Any src fuel p (s, (z, w)) = (Ok true, (s', (z', w')))) /\
    obs w' = fold_left (fun o v => u v o) (a ++ [x]) (obs w) /\ yields obs src n s' z' r.
Proof.
  intros H Hp Ha Hx w. destruct (any_ok obs src p q u Hp n _ s z H w) as (s' & z' & w' & E & HO).
  assert (HE : existsb q (a ++ x :: r) = true) by (rewrite existsb_app; cbn; rewrite Hx; apply orb_true_r).
  rewrite HE in *. destruct HO as [[HO _]|(a' & x' & r' & El & Ha' & Hx' & HO & Y)]; [discriminate|].
  assert (a = a' /\ x = x' /\ r = r') as (-> & -> & ->).
  { clear - El Ha Hx Ha' Hx'. revert a' El Ha'. induction a as [|y a IH]; intros [|y' a'] El Ha'; cbn in *.
    - injection El as -> ->. auto.
    - injection El as E1 E2. rewrite <- E1, Hx in Ha'. discriminate.
    - injection El as E1 E2. rewrite E1, Hx' in Ha. discriminate.
    - injection El as -> El. apply orb_false_iff in Ha as [_ Ha]. apply orb_false_iff in Ha' as [_ Ha'].
      destruct (IH Ha a' El Ha') as (-> & -> & ->). auto. }
  exists s', z', w'. auto.
Qed.
Theorem C42_all {W O S T} (obs : W -> O) (src : source S W T) n s z a x r p q u :
  yields obs src n s z (a ++ x :: r) -> answers_upd obs p q u -> forallb q a = true -> q x = false ->
  forall w, exists s' z' w',
    (forall fuel, (n + List.length (a ++ x :: r) < fuel)%nat -> All src fuel p (s, (z, w)) = (Ok false, (s', (z', w')))) /\
    obs w' = fold_left (fun o v => u v o) (a ++ [x]) (obs w) /\ yields obs src n s' z' r.
Proof.
  intros H Hp Ha Hx w. destruct (all_ok obs src p q u Hp n _ s z H w) as (s' & z' & w' & E & HO).
  assert (HE : forallb q (a ++ x :: r) = false) by (rewrite forallb_app; cbn; rewrite Hx; apply andb_false_r).
  rewrite HE in *. destruct HO as [[HO _]|(a' & x' & r' & El & Ha' & Hx' & HO & Y)]; [discriminate|].
  assert (a = a' /\ x = x' /\ r = r') as (-> & -> & ->).
  { clear - El Ha Hx Ha' Hx'. revert a' El Ha'. induction a as [|y a IH]; intros [|y' a'] El Ha'; cbn in *.
    - injection El as -> ->. auto.
    - injection El as E1 E2. rewrite <- E1, Hx in Ha'. discriminate.
    - injection El as E1 E2. rewrite E1, Hx' in Ha. discriminate.
    - injection El as -> El. apply andb_true_iff in Ha as [_ Ha]. apply andb_true_iff in Ha' as [_ Ha'].
      destruct (IH Ha a' El Ha') as (-> & -> & ->). auto. }
  exists s', z', w'. auto.
Qed.
Theorem C42_first {W O S T} (obs : W -> O) (src : source S W T) n s z x r : yields obs src n s z (x :: r) ->
  forall w, exists s' z' w',
    (forall fuel, (n <= fuel)%nat -> First src fuel (s, (z, w)) = (Ok x, (s', (z', w')))) /\ obs w' = obs w /\ yields obs src n s' z' r.
Proof.
  intros H w. destruct (yields_next obs src n s z _ H w) as (s' & z' & w' & E & HO & Y). exists s', z', w'.
  split; [|auto]. intros fuel Hf. unfold First, xbind. now rewrite E by exact Hf.
Qed.
Print Assumptions C42_any. Print Assumptions C42_all. Print Assumptions C42_first.

(** Any stops at 3, and the rest is there: [8; 10] of [ex_yields] after its first. *)
Example C42_example : exists s z, yields (fun w : unit => w) (sliceSource [1; 2; 3; 4; 5; 6; 7]) 8 s z [10] /\
  exists s0 z0, Any (sliceSource [1; 2; 3; 4; 5; 6; 7]) 20 (quiet (fun x => x =? 8)) (s0, (z0, tt)) = (Ok true, (s, (z, tt))).
Proof.
  destruct ex_yields as (s0 & z0 & Y).
  destruct (C42_any _ _ _ _ _ [] 8 [10] _ _ (fun _ o => o) Y (quiet_answers (fun x => x =? 8)) eq_refl eq_refl tt) as (s' & z' & [] & E & _ & Y').
  exists s', z'. split; [exact Y'|]. exists s0, z0. apply E. cbn. lia.
Qed.

(** ** C43: the end of a stream is sticky *)

(** For every source and callbacks whatsoever: once Next has said that the
    stream is over, it goes on saying so, and neither the source nor the world
    change, even if another source were put in its place. *)
Theorem C43_sticky {W S T} (src src' : source S W T) fuel s z w s1 z1 w1 :
  Next_ src fuel (s, (z, w)) = (Ok None, (s1, (z1, w1))) ->
  forall fuels, exists s2, nexts src' fuels (s1, (z1, w1)) = (Ok (map (fun _ => None) fuels), (s2, (z1, w1))).
Proof.
  intros H fuels. apply next_none in H. destruct (nexts_dead src' fuels s1 z1 w1 H) as (s2 & E & _). eauto.
Qed.
(** Also after more Map, Filter, Limit or Peek calls. *)
Theorem C43_sticky_builders {W S T} (src src' : source S W T) fuel s z w s1 z1 w1 cs :
  Next_ src fuel (s, (z, w)) = (Ok None, (s1, (z1, w1))) ->
  Forall (fun c => match c with BSkip _ => False | BLimit n => 0 <= n | _ => True end) cs ->
  forall fuels, exists s2, xbind (calls src' cs) (fun _ => nexts src' fuels) (s1, (z1, w1)) = (Ok (map (fun _ => None) fuels), (s2, (z1, w1))).
Proof.
  intros H HF fuels. apply next_none in H.
  assert (exists s2, calls src' cs (s1, (z1, w1)) = (Ok tt, (s2, (z1, w1))) /\ live s2 = false) as (s2 & E & L2).
  { revert s1 H. induction HF as [|c cs Hc HF IH]; intros s1 H; [exists s1; auto|].
    assert (exists s2, call src' c (s1, (z1, w1)) = (Ok tt, (s2, (z1, w1))) /\ live s2 = false) as (s2 & E & L2).
    { destruct c; try contradiction; cbn [call]; try (eexists; split; [reflexivity|exact H]).
      unfold Limit. replace (n <? 0) with false by lia. eexists; split; [reflexivity|exact H]. }
    destruct (IH s2 L2) as (s3 & E3 & L3). exists s3. cbn [calls]. unfold xbind. rewrite E. auto. }
  destruct (nexts_dead src' fuels s2 z1 w1 L2) as (s3 & E3 & _). exists s3. unfold xbind. now rewrite E.
Qed.
Print Assumptions C43_sticky. Print Assumptions C43_sticky_builders.
Example C43_example : exists st, Next_ (sliceSource (W := unit) [1]) 3 (New, (1, tt)) = (Ok None, st).
Proof. eexists. reflexivity. Qed.

(** ** C44: Range yields the arithmetic progression *)

(** When the number after the last one fits the type. *)
Theorem C44_range_partial {W} t start end_ step (w : W) fuel :
  0 < bits t -> step <> 0 -> inType t start ->
  inType t (start + Z.of_nat (range_count start end_ step) * step) ->
  (Datatypes.S (range_count start end_ step) < fuel)%nat ->
  exists z st, Range start end_ step = Ok z /\
    Slice (intSource t) fuel (New, (z, w)) = (Ok (progression start step (range_count start end_ step)), st).
Proof.
  intros Ht Hs Hst Hin Hf. exists (mkInt end_ step start false). unfold Range. replace (step =? 0) with false by lia.
  destruct (C40_slice_partial (fun _ : W => tt) (intSource t) (DRange t) [] [] (mkInt end_ step start false)
    (progression start step (range_count start end_ step)) 0 (range_delivers _ t Ht) (Forall2_nil _)) with (w := w) (fuel := fuel)
    as (s' & z' & w' & E & _).
  - split; [reflexivity|]. split; [exact Hs|]. split; [exact Hst|]. cbn [cur Stream_Model.end_ Stream_Model.step]. split; [reflexivity|].
    rewrite Z.add_0_r. split; [exact Hin|]. split; [|lia]. unfold inType. apply tmin_tmax. exact Ht.
  - apply Z.le_refl.
  - unfold progression. rewrite map_length, seq_length. exact Hf.
  - eexists. split; [reflexivity|exact E].
Qed.
Print Assumptions C44_range_partial.

(** The numbers of the progression are those between start and end. *)
Theorem C44_progression start end_ step x : step <> 0 ->
  In x (progression start step (range_count start end_ step)) <->
  exists k : Z, 0 <= k /\ x = start + k * step /\ (if step >? 0 then x <= end_ else end_ <= x).
Proof.
  intros Hs. unfold progression. rewrite in_map_iff. split.
  - intros (k & <- & Hk). apply in_seq in Hk. exists (Z.of_nat k). split; [lia|]. split; [reflexivity|].
    unfold range_count in Hk. destruct (step >? 0) eqn:E.
    + assert (Z.of_nat k <= (end_ - start) / step) by lia. assert (step * ((end_ - start) / step) <= end_ - start) by (apply Z.mul_div_le; lia). nia.
    + assert (Z.of_nat k <= (start - end_) / - step) by lia. assert (- step * ((start - end_) / - step) <= start - end_) by (apply Z.mul_div_le; lia). nia.
  - intros (k & Hk & -> & HB). exists (Z.to_nat k). rewrite Z2Nat.id by lia. split; [reflexivity|]. apply in_seq.
    unfold range_count. destruct (step >? 0) eqn:E.
    + assert (k <= (end_ - start) / step) by (apply Z.div_le_lower_bound; lia). lia.
    + assert (k <= (start - end_) / - step) by (apply Z.div_le_lower_bound; lia). lia.
Qed.
Print Assumptions C44_progression.

(** When it does not fit, Next returns another number after the last one. *)
Theorem C44_range_overflow_refuted {W} t start end_ step (w : W) fuels n :
  0 < bits t -> inType t start -> inType t end_ -> inType t step -> step <> 0 ->
  range_count start end_ step = Datatypes.S n -> ~ inType t (start + Z.of_nat (Datatypes.S n) * step) ->
  List.length fuels = Datatypes.S (Datatypes.S n) -> Forall (fun k => (0 < k)%nat) fuels ->
  exists z x st, Range start end_ step = Ok z /\
    nexts (intSource t) fuels (New, (z, w)) = (Ok (map Some (progression start step (Datatypes.S n) ++ [x])), st).
Proof.
  intros Ht H1 H2 H3 H4 HR Ho Hl HF. destruct (range_overflow_run t w Ht n start end_ step fuels H1 H2 H3 H4 HR Ho Hl HF) as (x & z' & E).
  eexists _, x, _. unfold Range. replace (step =? 0) with false by lia. split; [reflexivity|exact E].
Qed.
Print Assumptions C44_range_overflow_refuted.
Definition uint8 : inttype := {| bits := 8; signed := false |}.
Definition int8 : inttype := {| bits := 8; signed := true |}.
(** stream.Range[uint8](253, 255, 1): 253, 254, 255, and then 0. *)
Example C44_overflow_example : exists st,
  nexts (intSource uint8) [1; 1; 1; 1]%nat (New, (mkInt 255 1 253 false, tt)) = (Ok [Some 253; Some 254; Some 255; Some 0], st).
Proof. eexists. reflexivity. Qed.

(** A Range up to the greatest number of the type never ends. *)
Theorem C44_range_max_refuted {W} t start step (w : W) fuels :
  0 < bits t -> inType t start -> 0 < step -> Forall (fun k => (0 < k)%nat) fuels ->
  exists z st, Range start (tmax t) step = Ok z /\
    nexts (intSource t) fuels (New, (z, w)) = (Ok (map (fun k => Some (wrap t (start + Z.of_nat k * step))) (seq 0 (List.length fuels))), st).
Proof.
  intros Ht Hs Hst HF. destruct (endless_nexts (fun _ : W => tt) _ _ _ (range_endless _ t start (tmax t) step Ht ltac:(lia) ltac:(lia)) fuels HF
    (mkInt (tmax t) step start false) 0%nat w) as (z' & w' & E & _).
  { cbn. repeat split. rewrite Z.add_0_r. symmetry. now apply wrap_id. }
  eexists _, _. unfold Range. replace (step =? 0) with false by lia. split; [reflexivity|]. rewrite E. unfold prefix. now rewrite map_map.
Qed.
Print Assumptions C44_range_max_refuted.

(** RangeN(n): 0, ..., n - 1, as n itself fits; n - 1 has to fit as well. *)
Theorem C44_rangeN_partial {W} t n (w : W) fuel :
  1 < bits t -> inType t n -> inType t (n - 1) -> (Datatypes.S (Z.to_nat n) < fuel)%nat ->
  exists z st, RangeN t n = Ok z /\ Slice (intSource t) fuel (New, (z, w)) = (Ok (map Z.of_nat (seq 0 (Z.to_nat n))), st).
Proof.
  intros Ht Hn Hn1 Hf. unfold RangeN. rewrite wrap_id by (try assumption; lia).
  assert (HC : range_count 0 (n - 1) 1 = Z.to_nat n) by (unfold range_count; cbn [Z.gtb Z.compare]; rewrite Z.sub_0_r, Z.div_1_r; f_equal; lia).
  pose proof (tmin_tmax t ltac:(lia)) as HT.
  destruct (C44_range_partial t 0 (n - 1) 1 w fuel ltac:(lia) ltac:(lia)) as (z & st & E1 & E2).
  - exact HT.
  - rewrite HC. unfold inType in *. lia.
  - now rewrite HC.
  - exists z, st. split; [exact E1|]. rewrite E2, HC. do 2 f_equal. unfold progression. apply map_ext. intros k. lia.
Qed.
Print Assumptions C44_rangeN_partial.
(** RangeN(0) of an unsigned type, and RangeN of the least number of a signed
    type, should yield nothing; they never end. *)
Theorem C44_rangeN_refuted {W} t (w : W) fuels : 1 < bits t -> Forall (fun k => (0 < k)%nat) fuels ->
  exists z st, RangeN t (tmin t) = Ok z /\
    nexts (intSource t) fuels (New, (z, w)) = (Ok (map (fun k => Some (wrap t (Z.of_nat k))) (seq 0 (List.length fuels))), st).
Proof.
  intros Ht HF. unfold RangeN. pose proof (span t ltac:(lia)) as HS. pose proof (tmin_tmax t ltac:(lia)) as HT.
  pose proof (pow_pos t ltac:(lia)) as HP.
  replace (wrap t (tmin t - 1)) with (tmax t) by (rewrite wrap_under by lia; lia).
  destruct (C44_range_max_refuted t 0 1 w fuels ltac:(lia) HT ltac:(lia) HF) as (z & st & E1 & E2). exists z, st. split; [exact E1|].
  rewrite E2. do 2 f_equal. apply map_ext. intros k. do 2 f_equal. lia.
Qed.
Print Assumptions C44_rangeN_refuted.

(** IntegerSequence never ends, wrapping around the type; step 0 panics. *)
Theorem C44_sequence {W} t start step (w : W) fuels :
  0 < bits t -> inType t start -> step <> 0 -> Forall (fun k => (0 < k)%nat) fuels ->
  exists z st, IntegerSequence start step = Ok z /\
    nexts (intSource t) fuels (New, (z, w)) = (Ok (map (fun k => Some (wrap t (start + Z.of_nat k * step))) (seq 0 (List.length fuels))), st).
Proof.
  intros Ht Hs Hst HF. destruct (endless_nexts (fun _ : W => tt) _ _ _ (sequence_endless _ t Ht start step) fuels HF
    (mkInt 0 step start true) 0%nat w) as (z' & w' & E & _).
  { cbn. repeat split. rewrite Z.add_0_r. symmetry. now apply wrap_id. }
  eexists _, _. unfold IntegerSequence. replace (step =? 0) with false by lia. split; [reflexivity|]. rewrite E. unfold prefix. now rewrite map_map.
Qed.
Theorem C44_zero_step start end_ :
  Range start end_ 0 = Panic "stream.Range: step is 0" /\ IntegerSequence start 0 = Panic "stream.IntegerSequence: step is 0".
Proof. split; reflexivity. Qed.
Print Assumptions C44_sequence. Print Assumptions C44_zero_step.

(** Range[int8](100, -100, -60): 100, 40, -20, -80. *)
Example C44_example : range_count 100 (-100) (-60) = 4%nat /\ progression 100 (-60) 4 = [100; 40; -20; -80] /\
  ~ inType int8 (100 + 4 * -60) /\ inType {| bits := 16; signed := true |} (100 + 4 * -60).
Proof. unfold inType, int8, tmin, tmax. cbn [bits signed]. repeat split; try reflexivity; lia. Qed.

(** ** C45: Limit bounds consumption of infinite sources *)

(** Limit(n) after any Map, Filter, Limit and Peek stages over a source without
    end: if [m] is the first number of source elements of which more than n come
    through these stages, Slice ends with the n first ones after m pulls. *)
Theorem C45_limit_partial {W S T} (pulls : W -> nat) (src : source S W T) P f cs gs n m k z :
  counted pulls src P f -> Forall2 (stands pulls) cs gs -> Forall noSkip gs -> 0 <= n -> P z k ->
  Z.of_nat (List.length (pipeline gs (prefix f k m))) > n ->
  (forall j, (j < m)%nat -> Z.of_nat (List.length (pipeline gs (prefix f k j))) <= n) ->
  forall w fuel, (Datatypes.S m < fuel)%nat ->
  exists s' z' w', xbind (calls src (cs ++ [BLimit n])) (fun _ => Slice src fuel) (New, (z, w)) =
      (Ok (firstn (Z.to_nat n) (pipeline gs (prefix f k m))), (s', (z', w'))) /\
    pulls w' = (m + pulls w)%nat.
Proof. intros HC HS HN Hn HP Hlen Hmin w fuel Hf. eapply limit_ok; eassumption. Qed.
Print Assumptions C45_limit_partial.

(** Limit(n) directly on the source: n elements, but n + 1 pulls, for every n. *)
Theorem C45_limit_refuted {W S T} (pulls : W -> nat) (src : source S W T) P f n k z :
  counted pulls src P f -> 0 <= n -> P z k ->
  forall w fuel, (Z.to_nat n + 2 < fuel)%nat ->
  exists s' z' w', xbind (calls src [BLimit n]) (fun _ => Slice src fuel) (New, (z, w)) =
      (Ok (prefix f k (Z.to_nat n)), (s', (z', w'))) /\
    pulls w' = (Z.to_nat n + 1 + pulls w)%nat.
Proof.
  intros HC Hn HP w fuel Hf.
  assert (HL : forall j, List.length (pipeline [] (prefix f k j)) = j) by (intros j; cbn; unfold prefix; now rewrite map_length, seq_length).
  destruct (C45_limit_partial pulls src P f [] [] n (Z.to_nat n + 1) k z HC (Forall2_nil _) (Forall_nil _) Hn HP) with (w := w) (fuel := fuel)
    as (s' & z' & w' & E & HO).
  - rewrite HL. lia.
  - intros j Hj. rewrite HL. lia.
  - lia.
  - exists s', z', w'. split; [|exact HO]. cbn [app] in E. rewrite E. do 2 f_equal. cbn [pipeline fold_left]. unfold prefix.
    rewrite seq_app, map_app, firstn_app, map_length, seq_length, Nat.sub_diag. cbn [firstn]. rewrite app_nil_r.
    rewrite firstn_all2; [reflexivity|]. rewrite map_length, seq_length. lia.
Qed.
Print Assumptions C45_limit_refuted.

(** A generator of 0, 1, 2, ... that counts its calls in the world. *)
Definition ticking : X (Z * nat) Z := fun '(g, w) => (Ok g, (g + 1, Datatypes.S w)).
Lemma ticking_counted : counted (fun w : nat => w) (generator ticking) (fun g k => g = Z.of_nat k) Z.of_nat.
Proof. intros z k w ->. eexists _, _. split; [reflexivity|]. split; [lia|reflexivity]. Qed.
Example C45_example : exists st,
  xbind (calls (generator ticking) [BLimit 3]) (fun _ => Slice (generator ticking) 9) (New, (0, 0%nat)) = (Ok [0; 1; 2], (fst st, (snd st, 4%nat))).
Proof.
  destruct (C45_limit_refuted _ _ _ _ 3 0 0 ticking_counted ltac:(lia) eq_refl 0%nat 9%nat ltac:(cbn; lia)) as (s' & z' & w' & E & HO).
  exists (s', z'). cbn [fst snd]. cbn in HO. subst w'. exact E.
Qed.

(** ** C46: callbacks run element by element in pipeline order *)

(** For every source whose pulls are logged and every sequence of builder calls
    with callbacks that log, whose answers may depend on anything: each call of
    Next adds to the log whole turns: a pull, then the callbacks of the stages
    in order, each on what the one before made of the element, until a stage
    keeps it back; only then the next pull.  What comes out of the last stage is
    what Next returns. *)
Theorem C46_turns {W S T} (log : W -> list (event T)) (src : source S W T) cs iks z w st fuels rs s' z' w' :
  logs_pulls log src -> Forall2 (logs log) cs iks ->
  calls src cs (New, (z, w)) = (Ok tt, st) ->
  nexts src fuels st = (Ok rs, (s', (z', w'))) ->
  exists ess, Forall2 (fun es r => turn iks es (Ok r)) ess rs /\ log w' = log w ++ List.concat ess.
Proof.
  intros HL HS E1 E2. destruct st as [s1 [z1 w1]].
  destruct (calls_log log src HL cs iks HS [] New z w s1 z1 w1 eq_refl (fi_nil log) E1) as (HG & HO).
  destruct (nexts_log log src HL iks fuels s1 z1 w1 rs s' z' w' (fun _ => HG) E2) as (ess & HR & HO2 & _).
  exists ess. split; [exact HR|]. now rewrite HO2, HO.
Qed.
(** And one more call of Next, however it ends: also when a callback or the
    source panics. *)
Theorem C46_last_turn {W S T} (log : W -> list (event T)) (src : source S W T) cs iks z w st fuels rs s1 z1 w1 fuel r s2 z2 w2 :
  logs_pulls log src -> Forall2 (logs log) cs iks ->
  calls src cs (New, (z, w)) = (Ok tt, st) ->
  nexts src fuels st = (Ok rs, (s1, (z1, w1))) ->
  Next_ src fuel (s1, (z1, w1)) = (r, (s2, (z2, w2))) ->
  exists es, turn iks es r /\ log w2 = log w1 ++ es.
Proof.
  intros HL HS E1 E2 E3. destruct st as [s0 [z0 w0]].
  destruct (calls_log log src HL cs iks HS [] New z w s0 z0 w0 eq_refl (fi_nil log) E1) as (HG & _).
  destruct (nexts_log log src HL iks fuels s0 z0 w0 rs s1 z1 w1 (fun _ => HG) E2) as (_ & _ & _ & HF).
  destruct (next_log log src HL iks fuel s1 z1 w1 r s2 z2 w2 HF E3) as (es & HT & HO & _). eauto.
Qed.
Print Assumptions C46_turns. Print Assumptions C46_last_turn.

(** A slice source that logs, with a Filter and a Map that log. *)
Definition loggingSlice (a : list Z) : source Z (list (event Z)) Z := {|
  sNext := fun '(i, w) => match zget a i with Some x => (Ok (Some x), (i + 1, w ++ [EPull x])) | None => (Ok None, (i, w)) end;
  sSkip := fun n '(i, w) => (Ok n, (i + n, w)) |}.
Definition logging {B} (i : nat) (ans : B -> answer Z) (f : Z -> B) : Z -> X (list (event Z)) B :=
  fun v w => (Ok (f v), w ++ [ECall i v (ans (f v))]).
Definition ex_logged : list (build (list (event Z)) Z) :=
  [BFilter (logging 0 RBool (fun x => negb (x =? 2))); BMap (logging 1 RVal (fun x => x * 10))].
Example C46_example : exists st,
  logs_pulls (fun w => w) (loggingSlice [1; 2; 3]) /\
  Forall2 (logs (fun w => w)) ex_logged [(0%nat, KFilter); (1%nat, KMap)] /\
  xbind (calls (loggingSlice [1; 2; 3]) ex_logged)
    (fun _ => nexts (loggingSlice [1; 2; 3]) [5; 5]%nat) (New, (0, [])) =
  (Ok [Some 10; Some 30], (fst st, (snd st,
    [EPull 1; ECall 0 1 (RBool true); ECall 1 1 (RVal 10);
     EPull 2; ECall 0 2 (RBool false); EPull 3; ECall 0 3 (RBool true); ECall 1 3 (RVal 30)]))).
Proof.
  eexists (_, _). split; [|split; [|reflexivity]].
  - split.
    + intros z w r z' w' E. cbn in E. destruct (zget [1; 2; 3] z); injection E as <- <- <-; [reflexivity|now rewrite app_nil_r].
    + intros n z w r z' w' E. cbn in E. now injection E as <- <- <-.
  - repeat constructor; intros v w r w' E; injection E as <- <-; reflexivity.
Qed.

(** ** C47: Peek observes every element that flows past it *)

(** If no Limit follows, and every Skip that follows has a Filter or Limit
    before the Peek (or there is no Skip), then a Peek callback that records
    what it sees records all that the stages before it produce. *)
Theorem C47_peek_partial {W S T} (seen : W -> list T) (src : source S W T) D cpre pre c cpost post z ls b :
  delivers seen src D -> Forall2 (stands seen) cpre pre -> answers_upd seen c (fun _ => tt) (fun v l => l ++ [v]) ->
  Forall2 (stands seen) cpost post -> D z ls b -> skips (pre ++ post) <= b ->
  Forall noLimit post -> Forall noSkip post \/ existsb selects pre = true ->
  forall w fuel, (Datatypes.S (List.length ls) < fuel)%nat ->
  exists s' z' w', xbind (calls src (cpre ++ BPeek c :: cpost)) (fun _ => Slice src fuel) (New, (z, w)) =
      (Ok (pipeline (pre ++ post) ls), (s', (z', w'))) /\ seen w' = seen w ++ pipeline pre ls.
Proof.
  intros L H1 Hc H2 HD Hb HL Hg w fuel Hf.
  destruct (peek_ok seen src D cpre pre c cpost post z ls b w fuel L H1 Hc H2 HD Hb Hf Hg) as (s' & z' & w' & r & E & HO & _ & HR).
  exists s', z', w'. split; [exact E|]. now rewrite HO, HR.
Qed.
(** With Limits after it, a first part of it. *)
Theorem C47_peek_limit_partial {W S T} (seen : W -> list T) (src : source S W T) D cpre pre c cpost post z ls b :
  delivers seen src D -> Forall2 (stands seen) cpre pre -> answers_upd seen c (fun _ => tt) (fun v l => l ++ [v]) ->
  Forall2 (stands seen) cpost post -> D z ls b -> skips (pre ++ post) <= b ->
  Forall noSkip post \/ existsb selects pre = true ->
  forall w fuel, (Datatypes.S (List.length ls) < fuel)%nat ->
  exists s' z' w' r q, xbind (calls src (cpre ++ BPeek c :: cpost)) (fun _ => Slice src fuel) (New, (z, w)) =
      (Ok (pipeline (pre ++ post) ls), (s', (z', w'))) /\ seen w' = seen w ++ r /\ pipeline pre ls = r ++ q.
Proof.
  intros L H1 Hc H2 HD Hb Hg w fuel Hf.
  destruct (peek_ok seen src D cpre pre c cpost post z ls b w fuel L H1 Hc H2 HD Hb Hf Hg) as (s' & z' & w' & r & E & HO & [q Hq] & _).
  exists s', z', w', r, q. auto.
Qed.
Print Assumptions C47_peek_partial. Print Assumptions C47_peek_limit_partial.

Definition recording : Z -> X (list Z) unit := fun v w => (Ok tt, w ++ [v]).
Lemma recording_answers : answers_upd (fun w : list Z => w) recording (fun _ => tt) (fun v l => l ++ [v]).
Proof. intros a w. eexists. split; reflexivity. Qed.
(** Peek, then Skip(1): the skipped element is not seen, though every element
    of the source comes to the Peek. *)
Theorem C47_skip_refuted : exists st,
  xbind (calls (sliceSource [1; 2; 3]) [BPeek recording; BSkip 1]) (fun _ => Slice (sliceSource [1; 2; 3]) 9) (New, (0, [])) =
    (Ok [2; 3], (fst st, (snd st, [2; 3]))).
Proof. eexists (_, _). reflexivity. Qed.
Print Assumptions C47_skip_refuted.
Example C47_example : exists st,
  xbind (calls (sliceSource [1; 2; 3]) [BFilter (fun x w => (Ok (negb (x =? 2)), w)); BPeek recording; BSkip 1]) (fun _ => Slice (sliceSource [1; 2; 3]) 9) (New, (0, [])) =
    (Ok [3], (fst st, (snd st, [1; 3]))).
Proof.
  destruct (C47_peek_partial (fun w : list Z => w) (sliceSource [1; 2; 3]) _ [BFilter (fun x w => (Ok (negb (x =? 2)), w))] [SFilter (fun x => negb (x =? 2))]
    recording [BSkip 1] [SSkip 1] 0 [1; 2; 3] 100 (slice_delivers _ [1; 2; 3])) with (w := @nil Z) (fuel := 9%nat) as (s' & z' & w' & E & HO).
  - repeat constructor. intros a w. eexists. split; reflexivity.
  - exact recording_answers.
  - repeat constructor. lia.
  - repeat split; cbn; unfold maxInt; lia.
  - cbn. lia.
  - repeat constructor.
  - right. reflexivity.
  - cbn. lia.
  - exists (s', z'). cbn [fst snd]. cbn in HO. subst w'. exact E.
Qed.

(** ** C48: type-changing Map composes *)

(** stream.Map(s, f) is again a source that delivers: whatever stream [s] was
    built over a delivering source, it delivers [f] of what [s] yields, and may
    be asked to skip as much.  So C40 and this theorem itself apply to it, to
    any depth. *)
Theorem C48_map {W O S T R} (obs : W -> O) (src : source S W T) D (f : T -> X W R) g fuel :
  delivers obs src D -> answers obs f g ->
  exists D', delivers obs (transformed src fuel f) D' /\
    forall cs gs z ls b w, Forall2 (stands obs) cs gs -> D z ls b -> skips gs <= b -> (List.length ls < fuel)%nat ->
    exists s' z' w', calls src cs (New, (z, w)) = (Ok tt, (s', (z', w'))) /\ obs w' = obs w /\
      D' (s', z') (map g (pipeline gs ls)) (b - skips gs).
Proof.
  intros L Hf. exists (DT obs D g fuel). split; [now apply transformed_delivers|].
  intros cs gs z ls b w HS HD Hb Hl.
  destruct (den_calls obs src D L cs gs HS New z ls b (List.length ls) w (den_new obs D z ls b _ HD (le_n _)) eq_refl Hb)
    as (s' & z' & w' & E & HD' & HLv & HO).
  exists s', z', w'. split; [exact E|]. split; [exact HO|]. exists (pipeline gs ls), (List.length ls). auto.
Qed.
(** Skip on a new stream over it is Skip on the stream below, for any source. *)
Theorem C48_skip {W S T R} (src : source S W T) fuel (f : T -> X W R) n s z w :
  Skip (transformed src fuel f) n (New, ((s, z), w)) =
    let '(r, (s', (z', w'))) := Skip src n (s, (z, w)) in (r, (New, ((s', z'), w'))).
Proof.
  unfold Skip at 1. destruct (n <? 0) eqn:E; [unfold Skip; rewrite E; reflexivity|].
  destruct (n =? 0) eqn:E0; [unfold Skip; rewrite E, E0; reflexivity|].
  unfold xbind at 1, xget. cbn [fst New hasPred negb live]. unfold xbind at 1, onSource. cbn [transformed sSkip]. unfold SkipNext, xbind at 1.
  destruct (Skip src n (s, (z, w))) as [[u|e|] [s' [z' w']]]; try reflexivity. now destruct u.
Qed.
Print Assumptions C48_map. Print Assumptions C48_skip.

(** Two levels over a slice: Filter below, Map to text lengths and back. *)
Example C48_example : exists st,
  let src1 := sliceSource (W := unit) ["a"; "bcd"; "ef"; "ghij"]%string in
  let src2 := transformed src1 9 (quiet (fun t => Z.of_nat (String.length t))) in
  let src3 := transformed src2 9 (quiet (fun n => n * n)) in
  xbind (calls src3 [BSkip 1]) (fun _ => Slice src3 9) (New, ((New, (mkStream true [OPred (quiet (fun t => negb (String.eqb t "ef")))] true, 0)), tt)) =
    (Ok [9; 16], st).
Proof. eexists. reflexivity. Qed.

(** ** C49: sources enumerate and skip exactly *)

(** Slices (OfSlice, Of): while the index cannot overflow. *)
Theorem C49_slice_partial {W O T} (obs : W -> O) (a : list T) : exists D,
  delivers obs (sliceSource a) D /\ forall b, zlen a + b <= maxInt -> D 0 a b.
Proof.
  exists (DSlice a). split; [apply slice_delivers|]. intros b Hb. pose proof (zlen_nonneg a). repeat split; try lia.
Qed.
(** Skip(n) says how many it dropped. *)
Theorem C49_slice_skip_partial {W T} (a : list T) i n (w : W) : 0 <= i <= zlen a -> 0 <= n -> zlen a + n <= maxInt ->
  sSkip (sliceSource a) n (i, w) = (Ok (Z.min n (zlen a - i)), (i + Z.min n (zlen a - i), w)).
Proof.
  intros Hi Hn Hm. cbn [sliceSource sSkip]. replace (n <? 0) with false by lia. unfold maxInt in Hm. rewrite wrapInt_id by lia.
  destruct (i + n >=? zlen a) eqn:E.
  - rewrite Z.min_r by lia. now replace (i + (zlen a - i)) with (zlen a) by lia.
  - now rewrite Z.min_l by lia.
Qed.
(** Beyond, the index becomes negative: Skip(MaxInt) at index 1 leaves a source
    that panics. *)
Theorem C49_slice_skip_refuted {W} (w : W) : let src := sliceSource [1; 2] in
  sSkip src maxInt (1, w) = (Ok maxInt, (- 2 ^ 63, w)) /\ fst (sNext src (- 2 ^ 63, w)) = Panic "index out of range".
Proof. split; reflexivity. Qed.

(** Iterators of any container (OfIterators, OfRange), with random access or
    without: between positions i and j of the sequence. *)
Theorem C49_iterators {W O St It T C} (obs : W -> O) (o : Iter_Model.ops St It T) n (plug : C -> list T -> St) at_ random c l j :
  lawful o n plug at_ -> (random = true -> lawful_random o n plug at_) -> zlen l = n ->
  exists D, delivers obs (iteratorSource (W := W) o random (at_ j)) D /\
    (forall i b, 0 <= i <= j -> j <= n -> D (at_ i, plug c l) (part i j l) b) /\
    (* and SkipNext says how many it dropped *)
    forall i k w, 0 <= i <= j -> j <= n -> 0 <= k -> exists st,
      sSkip (iteratorSource (W := W) o random (at_ j)) k ((at_ i, plug c l), w) = (Ok (Z.min k (zlen (part i j l))), st).
Proof.
  intros L LR Hl. exists (DIter n plug at_ c l j). split; [now apply iterators_deliver|].
  split; [intros i b Hi Hj; exists i; auto|]. intros i k w Hi Hj Hk. eexists.
  rewrite (iterators_count obs o n plug at_ L random c l j) by assumption.
  now rewrite part_length by lia.
Qed.
(** Making the stream reads nothing: for two iterators of one sequence it starts at
    the first of them, whichever comes first. *)
Theorem C49_of_iterators {St It T C} (o : Iter_Model.ops St It T) n (plug : C -> list T -> St) at_ c l i j :
  lawful o n plug at_ -> zlen l = n -> 0 <= i <= n -> 0 <= j <= n ->
  OfIterators o (at_ j) (at_ i) (plug c l) = (Ok (at_ i), plug c l).
Proof. intros L Hl Hi Hj. unfold OfIterators, xbind. rewrite (law_equal _ _ _ _ L) by lia. reflexivity. Qed.
(** Bounded generators, that keep saying they are at the end. *)
Theorem C49_bounded {W O G T} (obs : W -> O) (g : X (G * W) (option T)) P : enumerates obs g P ->
  delivers obs (boundedGenerator g) (fun z l _ => P z l) /\
  forall z l n w, P z l -> 0 <= n -> exists st, sSkip (boundedGenerator g) n (z, w) = (Ok (Z.min n (zlen l)), st).
Proof.
  intros H. split; [now apply bounded_delivers|]. intros z l n w HP Hn.
  destruct (bounded_skip obs g P H (Z.to_nat n) z l 0 w HP) as (z' & w' & E & _). eexists. cbn [boundedGenerator sSkip]. rewrite E.
  do 2 f_equal. lia.
Qed.
(** Generators: never at an end; Next returns one element after the other, and Skip(n) drops n. *)
Theorem C49_generator {W O G T} (obs : W -> O) (g : X (G * W) T) P f : generates obs g P f ->
  endless obs (generator g) P f /\
  (forall z k n w, P z k -> 0 <= n -> exists st, sSkip (generator g) n (z, w) = (Ok n, st)) /\
  forall fuels, Forall (fun n => (0 < n)%nat) fuels -> forall z k w, P z k -> exists z' w',
    nexts (generator g) fuels (New, (z, w)) = (Ok (map Some (prefix f k (List.length fuels))), (New, (z', w'))) /\
    P z' (k + List.length fuels)%nat /\ obs w' = obs w.
Proof. intros H. pose proof (generator_endless obs g P f H) as HE. split; [exact HE|]. split; [|now apply endless_nexts].
  intros z k n w HP Hn. destruct (gen_skip obs g P f H (Z.to_nat n) z k w HP) as (z' & w' & E & _). cbn [generator sSkip]. unfold xbind. rewrite E. eexists. reflexivity. Qed.
Print Assumptions C49_slice_partial. Print Assumptions C49_slice_skip_partial. Print Assumptions C49_slice_skip_refuted.
Print Assumptions C49_iterators. Print Assumptions C49_bounded. Print Assumptions C49_generator.

(** A bounded generator: counting down to 0. *)
Definition countdown : X (Z * unit) (option Z) := fun '(g, w) => if g >? 0 then (Ok (Some g), (g - 1, w)) else (Ok None, (g, w)).
Example C49_bounded_example :
  enumerates (fun w : unit => w) countdown (fun g l => l = map (fun k => g - Z.of_nat k) (seq 0 (Z.to_nat g))) /\
  exists st, Slice (boundedGenerator countdown) 9 (New, (3, tt)) = (Ok [3; 2; 1], st).
Proof.
  split; [|eexists; reflexivity]. split.
  - intros g x l w E. destruct (Z.to_nat g) as [|k] eqn:Ek; [discriminate|]. cbn [seq map] in E. injection E as -> ->.
    exists (g - 1), w. cbn. replace (g >? 0) with true by lia. rewrite Z.sub_0_r. split; [reflexivity|]. split; [|reflexivity].
    replace (Z.to_nat (g - 1)) with k by lia. rewrite <- seq_shift, map_map. apply map_ext. intros j. lia.
  - intros g w E. exists g, w. destruct (Z.to_nat g) as [|k] eqn:Ek; [|discriminate]. cbn. replace (g >? 0) with false by lia. auto.
Qed.
Example C49_generator_example : generates (fun _ : nat => tt) ticking (fun g k => g = Z.of_nat k) Z.of_nat.
Proof. intros z k w ->. eexists _, _. split; [reflexivity|]. split; [lia|reflexivity]. Qed.
Print Assumptions C49_of_iterators.
