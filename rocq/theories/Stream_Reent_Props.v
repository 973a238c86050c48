(** C110: a callback may call Next on its own stream. *)
From Coq Require Import Lia.
From Verif Require Import Base Arr Exn Stream_Model Stream_Spec Stream_Sources Stream_Reent_Model Stream_Reent_Spec Stream_Reent_Proofs.
Local Open Scope string_scope.
Local Open Scope list_scope.
Local Open Scope Z_scope.

(** If all stages are Map and Peek, no call panics, whatever the callbacks do
    with the stream. *)
Theorem C110_map_peek_partial {S W T} (src : source S W T) ok opl a z w fuels e :
  calmSource ok src -> ok z -> Forall calmOp opl -> Forall passes opl -> ~ In (Panic e) (fst (rnexts src fuels (mkR a opl z w))).
Proof.
  intros Hs Hok Hc Hp.
  assert (H0 : Forall smooth opl).
  { rewrite Forall_forall in *. intros o Ho. split; auto. }
  destruct (rnexts_inv src (fun s => Forall smooth (array s) /\ ok (origin s)) (fun r => r <> Panic e)) with (fuels := fuels) (s := mkR a opl z w) as [_ HF].
  - intros fuel s r s' HI E. destruct (smooth_fine src ok Hs fuel) as (_ & N & _). destruct (N s r s' HI E) as (H1 & _ & H2). auto.
  - split; [exact H0|exact Hok].
  - intros HI. rewrite Forall_forall in HF. now apply (HF _ HI).
Qed.

(** With any stages: a call that panics leaves a stream that is over, for good.
    So nothing panics unless a callback ran into the end. *)
Theorem C110_panic_partial {S W T} (src : source S W T) ok opl a z w fuels s fuel e s' :
  calmSource ok src -> ok z -> Forall calmOp opl -> s = snd (rnexts src fuels (mkR a opl z w)) ->
  rnext src fuel s = (Panic e, s') -> forall fuel', (0 < fuel')%nat -> rnext src fuel' s' = (Ok None, s').
Proof.
  intros Hs Hok Hc -> E fuel' Hf.
  pose proof (fun fuel => panics_ended src ok calmOp Hs (fun o H => H) (fun _ _ => I) (fun _ _ => I) fuel) as HE.
  destruct (rnexts_inv src (good ok calmOp) (fun _ => True)) with (fuels := fuels) (s := mkR a opl z w) as [HI _].
  - intros f0 s0 r0 s0' HI0 E0. destruct (HE f0) as (_ & N & _). destruct (N _ _ _ HI0 E0). auto.
  - split; [exact Hc|exact Hok].
  - destruct (HE fuel) as (_ & N & _). destruct (N _ _ _ HI E) as [_ Ha]. destruct fuel' as [|f]; [lia|].
    cbn [rnext]. unfold xbind at 1, xget. rewrite Ha. unfold xbind, rclear, xret. do 2 f_equal. destruct s' as [al ar og wo]. cbn in *. now rewrite Ha.
Qed.

(** Limit(n) lets at most n elements through in all, those that callbacks take
    included: a Peek right after it is called at most n times. *)
Theorem C110_limit {S W T} (src : source S W T) (calls : W -> Z) bump before n behind z w fuels :
  keepsSource calls src -> (forall w, calls (bump w) = calls w + 1) -> 0 <= n ->
  Forall (keepsOp calls) before -> Forall (keepsOp calls) behind ->
  calls (world (snd (rnexts src fuels (mkR true (before ++ RLimit n :: counting bump :: behind) z w)))) <= calls w + n.
Proof.
  intros Hs Hb Hn H1 H2. set (j := List.length before).
  destruct (rnexts_inv src (within calls bump j (calls w + n)) (fun _ => True)) with (fuels := fuels) (s := mkR true (before ++ RLimit n :: counting bump :: behind) z w) as [HI _].
  - intros fuel s r s' HI E. destruct (limit_within src calls bump j Hs Hb (calls w + n) fuel) as (_ & N & _). split; [exact (N _ _ _ HI E)|exact I].
  - exists n. cbn. split; [|lia]. split; [|split; [|split; [exact Hn|]]].
    + rewrite nth_error_app2 by (unfold j; lia). unfold j. now rewrite Nat.sub_diag.
    + rewrite nth_error_app2 by (unfold j; lia). unfold j. replace (List.length before + 1 - List.length before)%nat with 1%nat by lia. reflexivity.
    + intros i o E Hi. destruct (Nat.lt_ge_cases i j) as [Hlt|Hge].
      * rewrite nth_error_app1 in E by exact Hlt. exact (Forall_nth _ _ _ _ H1 E).
      * rewrite nth_error_app2 in E by exact Hge. fold j in E. destruct (i - j)%nat as [|[|k]] eqn:Ek; cbn in E.
        -- injection E as <-. exact I.
        -- exfalso. lia.
        -- exact (Forall_nth _ _ _ _ H2 E).
  - destruct HI as (m & (_ & _ & Hm & _) & HC). lia.
Qed.

(** A Map whose callback takes the next element to combine it with its own: the
    elements it takes go through the Map too, so that one call of Next folds the
    whole stream, from the right. *)
Theorem C110_fold {S W T} (src : source S W T) D (f : T -> option T -> T) z l b w :
  delivers (fun _ : W => tt) src D -> D z l b ->
  exists N z' w', forall fuel, (N <= fuel)%nat ->
    rnext src fuel (mkR true [combining f] z w) = (Ok (fold_right (fun x r => Some (f x r)) None l), mkR false [combining f] z' w').
Proof. intros L HD. eapply fold_ok; eassumption. Qed.

(** For callbacks that do not call Next this is the model of C40 to C49. *)
Theorem C110_same {S W T} (src : source S W T) fuel opl hp z w r s' z' w' :
  Next_ src fuel (mkStream true opl hp, (z, w)) = (r, (s', (z', w'))) -> r <> Diverge ->
  exists N l, (live s' = true -> l = map plainOp (ops s')) /\ forall fuel', (N <= fuel')%nat ->
    rnext src fuel' (mkR true (map plainOp opl) z w) = (r, mkR (live s') l z' w').
Proof.
  intros E Hr. change (nextLoop src fuel (mkStream true opl hp, (z, w)) = (r, (s', (z', w')))) in E.
  destruct (loop_same src fuel _ _ _ _ _ _ _ _ E Hr) as (N & l & Hl & HN). exists (Datatypes.S N), l. split; [exact Hl|].
  intros [|fuel'] Hf; [lia|]. apply HN. lia.
Qed.

(** A Filter whose predicate looks ahead: at the end, Next panics. *)
Theorem C110_filter_refuted : exists s',
  rnext (W := unit) (sliceSource [1]) 9 (mkR true [RPred (fun v => Pull (fun r => Done (match r with Some x => v <? x | None => false end)))] 0 tt) =
    (Panic "invalid memory address or nil pointer dereference", s').
Proof. eexists. reflexivity. Qed.
(** A Map that looks ahead, then a Limit: at the end, Next panics. *)
Theorem C110_limit_refuted : exists s',
  rnext (W := unit) (sliceSource [1; 2]) 20 (mkR true [combining (fun v r => match r with Some x => v + x | None => v end); RLimit 5] 0 tt) =
    (Panic "index out of range", s').
Proof. eexists. reflexivity. Qed.
Print Assumptions C110_map_peek_partial. Print Assumptions C110_panic_partial. Print Assumptions C110_limit.
Print Assumptions C110_fold. Print Assumptions C110_same.
Print Assumptions C110_filter_refuted. Print Assumptions C110_limit_refuted.

(** The sum of 1, 2, 3, by a look-ahead. *)
Definition plus (v : Z) (r : option Z) : Z := match r with Some x => v + x | None => v end.
Example C110_fold_case : exists N z' w', forall fuel, (N <= fuel)%nat ->
  rnext (W := unit) (sliceSource [1; 2; 3]) fuel (mkR true [combining plus] 0 tt) = (Ok (Some 6), mkR false [combining plus] z' w').
Proof.
  apply (C110_fold (sliceSource [1; 2; 3]) _ plus 0 [1; 2; 3] 100 tt (slice_delivers _ [1; 2; 3])).
  repeat split; cbn; unfold maxInt; lia.
Qed.
(** The hypotheses of the others hold of it too. *)
Example C110_case : calmSource (W := unit) (fun i => 0 <= i <= 3) (sliceSource [1; 2; 3]) /\
  calmOp (combining (W := unit) plus) /\ passes (combining (W := unit) plus).
Proof.
  split; [|split; [|exact I]].
  - intros z w Hz. assert (z = 0 \/ z = 1 \/ z = 2 \/ z = 3) as [-> | [-> | [-> | ->]]] by lia; (split; [intros e; vm_compute; discriminate|vm_compute; split; discriminate]).
  - intros v. constructor. intros r. constructor.
Qed.
(** Filter(look ahead), Limit(2), a counting Peek, over 1, 2, 3, 4. *)
Definition ahead : rop Z Z := RPred (fun v => Pull (fun r => Done (match r with Some x => v <? x | None => true end))).
Example C110_limit_case : world (snd (rnexts (sliceSource [1; 2; 3; 4]) [30%nat; 30%nat] (mkR true (ahead :: RLimit 2 :: [counting (fun w => w + 1)]) 0 0))) <= 0 + 2.
Proof.
  apply (C110_limit (sliceSource [1; 2; 3; 4]) (fun w : Z => w) (fun w => w + 1) [ahead] 2 [] 0 0).
  - intros z w. cbn. destruct (z =? 4); [reflexivity|]. now destruct (zget [1; 2; 3; 4] z).
  - reflexivity.
  - lia.
  - repeat constructor.
  - constructor.
Qed.
