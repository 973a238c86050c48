(** C133: several streams over one source. *)
From Coq Require Import Lia.
From Verif Require Import Base Arr Exn Stream_Model Stream_Spec Stream_Proofs Stream_Den Stream_Sources Stream_Facts Stream_Props
  Stream_Share_Model Stream_Share_Spec Stream_Share_Proofs.
Local Open Scope list_scope.
Local Open Scope Z_scope.

(** Any number of streams over one source with the elements [ls], used in turn in
    any way.  Every element taken from the source goes to one stream, named by
    [who]; the rest is still there.  What each stream does, panics included, is
    what it would do alone over a source with just the elements it got. *)
Theorem C133_shares {S W T} (src : source S W T) (D : S -> list T -> Z -> Prop) us z ls b w rs ss' z' w' :
  delivers (fun _ : W => tt) src D -> staysOver src D (skipsOf us) -> Forall (fun u => deafUse (snd u)) us ->
  D z ls b -> skipsOf us <= b ->
  runOps (sharedUse src) us (fun _ => New, (z, w)) = (rs, (ss', (z', w'))) ->
  exists who, (List.length who <= List.length ls)%nat /\ (exists b', D z' (skipn (List.length who) ls) b') /\
    forall i w1, givenTo i us rs = fst (runOps (use1 listSource) (usesOf i us) (New, (dealt i who ls, w1))).
Proof.
  intros H1 H2 H3 H4 H5 E.
  destruct (share src D H1 _ H2 us H3 (fun _ => New) z w ls b rs ss' z' w' (fun _ => Forall_nil _) H4 H5 ltac:(lia) E) as (who & A & B & C).
  exists who. split; [exact A|]. split; [exact B|]. intros i w1. symmetry. apply C.
Qed.

(** So a stream that is built and then asked gives the list pipeline of its share
    and then nothing for ever. *)
Theorem C133_pipelines {S W T} (src : source S W T) (D : S -> list T -> Z -> Prop) us z ls b w rs ss' z' w' :
  delivers (fun _ : W => tt) src D -> staysOver src D (skipsOf us) -> Forall (fun u => deafUse (snd u)) us ->
  D z ls b -> skipsOf us <= b ->
  runOps (sharedUse src) us (fun _ => New, (z, w)) = (rs, (ss', (z', w'))) ->
  exists who, (List.length who <= List.length ls)%nat /\
    forall i cs gs fuels, usesOf i us = map UBuild cs ++ map UNext fuels ->
    Forall2 (stands (fun _ : W => tt)) cs gs -> Forall (fun fuel => (List.length ls < fuel)%nat) fuels ->
    givenTo i us rs = map (fun _ => Ok None) cs ++
      firstn (List.length fuels) (map (fun v => Ok (Some v)) (pipeline gs (dealt i who ls)) ++ repeat (Ok None) (List.length fuels)).
Proof.
  intros H1 H2 H3 H4 H5 E. destruct (C133_shares src D us z ls b w rs ss' z' w' H1 H2 H3 H4 H5 E) as (who & A & _ & C).
  exists who. split; [exact A|]. intros i cs gs fuels Hu Hst Hf. rewrite (C i w), Hu, run_app.
  destruct (C40_pipeline_partial (fun _ : W => tt) listSource _ cs gs (dealt i who ls) (dealt i who ls) (skips gs) list_delivers Hst eq_refl
    ltac:(lia) w) as (s1 & z1 & w1 & E1 & _ & Y).
  rewrite (run_calls listSource cs _ _ E1).
  assert (Hl : (List.length (dealt i who ls) <= List.length ls)%nat).
  { clear. revert ls. induction who as [|j who IH]; intros [|x ls]; cbn; try lia. specialize (IH ls). destruct (Nat.eqb j i); cbn; lia. }
  pose proof (run_yields _ listSource _ _ fuels s1 z1 w1 Y) as Q.
  destruct (runOps (use1 listSource) (map UNext fuels) (s1, (z1, w1))) as [rs' st']. cbn in Q |- *. f_equal. apply Q.
  eapply Forall_impl; [|exact Hf]. cbn. intros fuel Hfuel. lia.
Qed.

(** Such sources: a slice, and a stream over any other such source, as long as
    nobody calls Skip on a stream over it. *)
Theorem C133_sources {W T} :
  (forall a : list T, exists D, delivers (fun _ : W => tt) (sliceSource a) D /\ (forall m, staysOver (W := W) (sliceSource a) D m) /\
     forall b, zlen a + b <= maxInt -> D 0 a b) /\
  (forall S (src : source S W T) D fuel, delivers (fun _ : W => tt) src D ->
   exists D', delivers (fun _ : W => tt) (streamSource src fuel) D' /\ staysOver (streamSource src fuel) D' 0 /\
     forall cs gs z ls b w, Forall2 (stands (fun _ : W => tt)) cs gs -> D z ls b -> skips gs <= b -> (List.length ls < fuel)%nat ->
     exists s' z' w', calls src cs (New, (z, w)) = (Ok tt, (s', (z', w'))) /\ D' (s', z') (pipeline gs ls) (b - skips gs)).
Proof.
  split.
  - intros a. exists (DSlice a). split; [apply slice_delivers|]. split; [apply slice_staysOver|].
    intros b Hb. pose proof (zlen_nonneg a). repeat split; try lia.
  - intros S src D fuel H.
    destruct (C48_map (fun _ : W => tt) src D (fun x : T => xret x) (fun x => x) fuel H) as (D1 & H1 & H2).
    { intros a w. exists w. split; reflexivity. }
    assert (EN : forall s, sNext (transformed src fuel (fun x : T => xret x)) s = sNext (streamSource src fuel) s).
    { intros [[s z] w]. cbn [transformed streamSource sNext]. unfold xbind at 1. destruct (Next_ src fuel (s, (z, w))) as [[[v|]|e|] [s' [z' w']]]; reflexivity. }
    assert (ES : forall n s, sSkip (transformed src fuel (fun x : T => xret x)) n s = sSkip (streamSource src fuel) n s) by reflexivity.
    exists (fun st l b => D1 st l b \/ (live (fst st) = false /\ l = [] /\ b <= 0)).
    assert (Dead : forall st w, live (fst st) = false -> exists st', sNext (streamSource src fuel) (st, w) = (Ok None, (st', w)) /\ live (fst st') = false).
    { intros [s z] w L. cbn in L. cbn [streamSource sNext]. rewrite (next_dead src fuel s z w L). eexists. split; reflexivity. }
    split; [|split].
    + split.
      * intros st b w [Q|(L & _ & _)].
        -- rewrite <- EN. exact (del_end _ _ _ H1 st b w Q).
        -- destruct (Dead st w L) as (st' & E & _). eauto.
      * intros st x l b w [Q|(_ & ? & _)]; [|discriminate]. rewrite <- EN.
        destruct (del_next _ _ _ H1 st x l b w Q) as (s' & w' & E & Q' & _). exists s', w'. split; [exact E|]. split; [left; exact Q'|reflexivity].
      * intros st l b n w [Q|(_ & _ & ?)] Hn; [|lia]. rewrite <- ES.
        destruct (del_skip _ _ _ H1 st l b n w Q Hn) as (k & s' & w' & E & Q' & _). exists k, s', w'. split; [exact E|]. split; [left; exact Q'|reflexivity].
    + intros st b w [Q|(L & _ & Hb)].
      * destruct (del_end _ _ _ H1 st b w Q) as (st' & w' & E & _). rewrite EN in E. exists st', w', 0. split; [exact E|]. split; [|lia].
        right. split; [|split; [reflexivity|lia]]. destruct st as [s z]. cbn [streamSource sNext] in E.
        destruct (Next_ src fuel (s, (z, w))) as [r [s1 [z1 w1]]] eqn:EE. injection E as -> <- <-. exact (next_none src fuel s z w s1 z1 w1 EE).
      * destruct (Dead st w L) as (st' & E & L'). exists st', w, b. split; [exact E|]. split; [right; auto|lia].
    + intros cs gs z ls b w A1 A2 A3 A4. destruct (H2 cs gs z ls b w A1 A2 A3 A4) as (s' & z' & w' & E & _ & Q).
      exists s', z', w'. split; [exact E|]. left. rewrite map_id in Q. exact Q.
Qed.

(** New(src).Limit(n).Slice(), [k] times: after each page one element is lost. *)
Theorem C133_pages_partial {S W T} (src : source S W T) (D : S -> list T -> Z -> Prop) z ls b w n k fuel :
  delivers (fun _ : W => tt) src D -> staysOver src D 0 -> D z ls b -> 0 <= n -> (Z.to_nat n + 1 < fuel)%nat ->
  exists z' w', pages src fuel n k (z, w) = (Ok (gappyPages (Z.to_nat n) k ls), (z', w')).
Proof. intros H1 H2 HD Hn Hf. exact (pages_ok src D H1 H2 n fuel k Hn Hf ls z b w HD). Qed.

(** So the pages are never the whole source if it has more elements than a page,
    however many pages are made. *)
Theorem C133_pages_refuted {S W T} (src : source S W T) (D : S -> list T -> Z -> Prop) z ls b w n fuel :
  delivers (fun _ : W => tt) src D -> staysOver src D 0 -> D z ls b -> 0 <= n -> (Z.to_nat n + 1 < fuel)%nat -> n < zlen ls ->
  forall k, exists ps st, pages src fuel n k (z, w) = (Ok ps, st) /\ List.concat ps <> ls.
Proof.
  intros H1 H2 HD Hn Hf Hl k. destruct (pages_ok src D H1 H2 n fuel k Hn Hf ls z b w HD) as (z' & w' & E).
  exists (gappyPages (Z.to_nat n) k ls), (z', w'). split; [exact E|]. intros Q. apply (f_equal (@List.length T)) in Q. unfold zlen in Hl.
  assert (G : forall m k (l : list T), (List.length (List.concat (gappyPages m k l)) <= List.length l)%nat).
  { clear. intros m k. induction k as [|k IH]; intros l; cbn; [lia|]. rewrite app_length. specialize (IH (skipn (m + 1) l)).
    rewrite skipn_length in IH. rewrite firstn_length. lia. }
  destruct k as [|k]; cbn in Q; [lia|]. rewrite app_length in Q. specialize (G (Z.to_nat n) k (skipn (Z.to_nat n + 1) ls)).
  rewrite skipn_length in G. rewrite firstn_length in Q. lia.
Qed.

Print Assumptions C133_shares. Print Assumptions C133_pipelines. Print Assumptions C133_sources.
Print Assumptions C133_pages_partial. Print Assumptions C133_pages_refuted.

(** Three streams over one slice: even numbers, at most one number, and all but
    one number. *)
Definition uses133 : list (nat * use unit Z) :=
  [(0%nat, UBuild (BFilter (quiet Z.even))); (1%nat, UBuild (BLimit 1)); (0%nat, UNext 9); (1%nat, UNext 9);
   (2%nat, UBuild (BSkip 1)); (2%nat, UNext 9); (1%nat, UNext 9); (0%nat, UNext 9); (2%nat, UNext 9)].
Example C133_case : let ls := [1; 2; 3; 4; 5; 6; 7] in
  fst (runOps (sharedUse (sliceSource ls)) uses133 (fun _ => New, (0, tt))) =
    [Ok None; Ok None; Ok (Some 2); Ok (Some 3); Ok None; Ok (Some 5); Ok None; Ok None; Ok None] /\
  (exists D, delivers (fun _ : unit => tt) (sliceSource ls) D /\ staysOver (W := unit) (sliceSource ls) D (skipsOf uses133) /\ D 0 ls 1) /\
  skipsOf uses133 <= 1 /\ Forall (fun u => deafUse (snd u)) uses133.
Proof.
  cbn zeta. split; [reflexivity|]. split; [|split].
  - destruct (proj1 (@C133_sources unit Z) [1; 2; 3; 4; 5; 6; 7]) as (D & H1 & H2 & H3). exists D. split; [exact H1|]. split; [apply H2|].
    apply H3. cbn. unfold maxInt. lia.
  - cbn. lia.
  - repeat constructor.
Qed.
(** Pages of two out of seven. *)
Example C133_pages_case : fst (pages (sliceSource [1; 2; 3; 4; 5; 6; 7]) 9 2 3 (0, tt)) = Ok [[1; 2]; [4; 5]; [7]].
Proof. reflexivity. Qed.
