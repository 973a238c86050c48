(** C111: a stream over a slice reads each element when its turn comes. *)
From Coq Require Import Lia.
From Verif Require Import Base Arr Exn GoSlice GoSlice_Proofs Algo_Proofs Iter_Model Stream_Model Stream_Spec Stream_Sources Stream_Props XSlice_Model Stream_Live_Model Stream_Live_Spec Stream_Live_Proofs.
Local Open Scope exn_scope.
Local Open Scope string_scope.
Local Open Scope list_scope.
Local Open Scope Z_scope.

(** Collect on a stream over the slice [a] with Filter, Map and Peek stages is
    the range loop over [a]: every callback may do to the heap what it likes,
    or panic; what it writes ahead is seen, and the number of elements is the
    length [a] had at first. *)
Theorem C111_loop {V T} (a : slice) (os : list (op (heap T * V) T)) (c : T -> X (heap T * V) unit) hp fuel hv :
  Forall uncounted os -> 0 <= len a -> (Z.to_nat (len a) < fuel)%nat ->
  effect (Collect (liveSlice a) fuel c (mkStream true os hp, (0, hv))) = rangeLoop a (through os c) (Z.to_nat (len a)) 0 hv.
Proof. intros Ho Hl Hf. apply collect_loop; try assumption. lia. Qed.
Print Assumptions C111_loop.

(** A stream over the iterators from Begin to End of an xslice does the same,
    whatever the stages and the callbacks. *)
Theorem C111_iterators {V T} (a : slice) random s (c : T -> X (heap T * V) unit) fuel hv b e (h0 : heap T) :
  0 <= len a -> Begin a h0 = (Ok b, h0) -> End a h0 = (Ok e, h0) ->
  effect (Collect (liveIterators sliceOps random e) fuel c (s, (b, hv))) = effect (Collect (liveSlice a) fuel c (s, (0, hv))).
Proof.
  intros Hl Eb Ee. unfold Begin, End, IteratorAt in *. replace ((0 <? 0) || (len a <? 0)) with false in Eb by lia.
  replace ((len a <? 0) || (len a <? len a)) with false in Ee by lia. injection Eb as <-. injection Ee as <-.
  apply collect_its. lia.
Qed.
Print Assumptions C111_iterators.

(** Collecting into the front of the very slice that is read: with [b := a[:0]],
    Collect(b.Append) gives in [b] what a consumer that keeps the elements
    elsewhere would have got from the original elements, for all stages and
    callbacks that leave [a] and [b] alone, and also when one of them panics.
    Only those cells change. *)
Theorem C111_in_place {W T} (zero : T) growth h a b (s : stream W T) fuel w r s' i' out w' :
  valid h a -> reslice a 0 0 h = (Ok b, h) ->
  Collect (sliceSource (elems h a)) fuel note (within_ s, (0, ([], w))) = (r, (s', (i', (out, w')))) ->
  exists s'' h' b',
    Collect (liveSlice a) fuel (appendTo zero growth) (within_ (within_ s), (0, (h, (b, w)))) = (r, (s'', (i', (h', (b', w'))))) /\
    elems h' b' = out /\ arr b' = arr a /\ off b' = off a /\
    elems h' a = out ++ skipn (List.length out) (elems h a) /\
    forall k j, ~ (k = arr a /\ off a <= j < off a + zlen out) -> cell h' k j = cell h k j.
Proof.
  intros Hv Eb Es. destruct (valid_view h a Hv) as (pre & l & spare & post & V). pose proof V as [V1 V2 V3 V4].
  rewrite (view_elems _ _ _ _ _ _ V) in *.
  pose proof (zlen_nonneg l) as Hl. pose proof (zlen_nonneg spare).
  assert (b = upto a ([] : list T)) as ->.
  { unfold reslice in Eb. replace ((0 <=? 0) && (0 <=? 0) && (0 <=? cap a)) with true in Eb by lia. injection Eb as <-.
    unfold upto. change (zlen (@nil T)) with 0. f_equal; destruct (cap a - 0 =? 0); lia. }
  assert (Eh : over h a pre l spare post [] = h) by (apply (inplace_id h a pre l spare post V)).
  destruct (collect_inplace (W := W) h a pre l spare post V zero growth fuel s 0 [] w) as (r' & s1 & i1 & out1 & w1 & E1 & E2 & Hi);
    [change (zlen (@nil T)) with 0; lia|].
  rewrite Es in E1. injection E1 as <- _ <- <- <-. rewrite Eh in E2.
  assert (Hout : zlen out <= zlen l) by lia.
  exists (within_ (within_ s1)), (over h a pre l spare post out), (upto a out).
  split; [exact E2|].
  split; [exact (view_elems _ _ _ _ _ _ (over_upto h a pre l spare post V out Hout))|].
  split; [reflexivity|]. split; [reflexivity|].
  split; [exact (view_elems _ _ _ _ _ _ (over_view h a pre l spare post V out Hout))|].
  intros k j Hkj. unfold cell, over, inplace. destruct (Nat.eq_dec (arr a) k) as [<-|Hne].
  2:{ now rewrite nth_error_upd_other by congruence. }
  rewrite (nth_error_upd_same _ _ _ _ V1), V1.
  assert (El : l = firstn (List.length out) l ++ skipn (List.length out) l) by now rewrite firstn_skipn.
  assert (Ef : zlen (firstn (List.length out) l) = zlen out) by (unfold zlen in *; rewrite firstn_length; lia).
  rewrite El at 2. rewrite <- !app_assoc.
  destruct (Z_lt_dec j 0) as [Hj|Hj]; [unfold zget; replace (j <? 0) with true by lia; reflexivity|].
  destruct (Z_lt_dec j (zlen pre)) as [Hj2|Hj2].
  - rewrite !zget_app_l by lia. reflexivity.
  - rewrite !(zget_app_r pre) by lia.
    assert (off a + zlen out <= j) by (destruct (Z_lt_dec j (off a + zlen out)); [exfalso; apply Hkj; split; [reflexivity|lia]|lia]).
    rewrite (zget_app_r out), (zget_app_r (firstn _ l)) by lia. rewrite Ef. reflexivity.
Qed.
Print Assumptions C111_in_place.

Lemma stands_within {W T} cs (gs : list (stage T)) : Forall2 (stands (fun _ : W => tt)) cs gs ->
  Forall2 (stands (fst (A := list T) (B := W))) (map withinB cs) gs.
Proof.
  assert (A : forall X Y (f : X -> Exn.X W Y) g, answers (fun _ => tt) f g -> answers (fst (A := list T)) (fun v => onWorld (f v)) g).
  { intros X Y f g H v [y w]. destruct (H v w) as (w' & E & _). exists (y, w'). unfold onWorld. rewrite E. auto. }
  induction 1 as [|c g cs gs H _ IH]; [constructor|]. constructor; [|exact IH]. destruct H; cbn [withinB]; constructor; auto.
Qed.

(** The whole program, for callbacks that do not panic: the builder calls on
    OfSlice(a), then Collect(b.Append) with [b := a[:0]], leave in [b] the list
    pipeline of the elements of [a]. *)
Theorem C111_pipeline {W T} (zero : T) growth (h : heap T) a b cs gs fuel (w : W) :
  valid h a -> reslice a 0 0 h = (Ok b, h) -> Forall2 (stands (fun _ : W => tt)) cs gs -> len a + skips gs <= maxInt ->
  (2 * Z.to_nat (len a) + 2 < fuel)%nat ->
  exists s' i' h' b' w',
    (calls (liveSlice a) (map withinB (map withinB cs)) ;; Collect (liveSlice a) fuel (appendTo zero growth)) (Stream_Model.New, (0, (h, (b, w)))) =
      (Ok tt, (s', (i', (h', (b', w'))))) /\
    elems h' b' = pipeline gs (elems h a) /\ arr b' = arr a /\ off b' = off a.
Proof.
  intros Hv Eb Hs Hm Hf. set (l := elems h a).
  assert (Hl : zlen l = len a).
  { destruct (valid_view h a Hv) as (pre & l' & spare & post & V). unfold l. rewrite (view_elems _ _ _ _ _ _ V).
    symmetry. exact (vw_len _ _ _ _ _ _ V). }
  pose proof (skips_nonneg _ _ _ Hs) as Hn. pose proof (zlen_nonneg l) as Hl0.
  destruct (C40_pipeline_partial (fst (A := list T) (B := W)) (sliceSource l) (DSlice l) (map withinB cs) gs 0 l (skips gs)
    (slice_delivers _ l) (stands_within cs gs Hs)) with (w := ([] : list T, w)) as (s1 & z1 & w1 & Ec & Ho & Hy).
  { repeat split; try lia. } { lia. }
  change (@Stream_Model.New (list T * W) T) with (within_ (Y := list T) (@Stream_Model.New W T)) in Ec. rewrite call_fixed in Ec.
  destruct (calls_range (fun _ => tt) l cs gs Hs Stream_Model.New 0 w eq_refl) as (s0 & i0 & E0 & Hi0); [lia|lia|].
  rewrite E0 in Ec. injection Ec as <- <- <-.
  destruct (C41_collect fst (sliceSource l) _ _ _ _ note (fun v out => out ++ [v]) Hy) with (w := ([] : list T, w))
    as (s2 & z2 & w2 & E2 & Hout).
  { intros v [out u]. eexists. split; reflexivity. }
  assert (Hlen : (List.length (pipeline gs l) <= List.length l)%nat).
  { clear. unfold pipeline. clearbody l. revert l. induction gs as [|g gs IH]; intros l; [reflexivity|]. cbn [fold_left].
    etransitivity; [apply IH|]. destruct g; cbn [apply].
    - clear. induction l as [|x l IH]; cbn; [lia|]. destruct (p x); cbn; lia.
    - rewrite skipn_length. lia.
    - rewrite firstn_length. lia.
    - rewrite map_length. lia.
    - lia. }
  destruct w2 as [out2 w2]. cbn [fst] in Hout.
  assert (Eo : forall p q : list T, fold_left (fun o v => o ++ [v]) p q = q ++ p).
  { clear. induction p as [|x p IH]; intros q; cbn; [now rewrite app_nil_r|]. rewrite IH, <- app_assoc. reflexivity. }
  rewrite Eo in Hout. cbn [app] in Hout. subst out2.
  specialize (E2 fuel ltac:(unfold zlen in Hl; lia)).
  unfold xbind at 1. change (@Stream_Model.New (heap T * (slice * W)) T) with (within_ (Y := heap T) (within_ (Y := slice) (@Stream_Model.New W T))).
  rewrite (call_live a l) by assumption. rewrite call_fixed, E0.
  destruct (valid_view h a Hv) as (pre & l' & spare & post & V). pose proof V as [V1 V2 V3 V4].
  assert (l' = l) as -> by (symmetry; exact (view_elems _ _ _ _ _ _ V)).
  assert (b = upto a ([] : list T)) as ->.
  { unfold reslice in Eb. pose proof (zlen_nonneg spare). replace ((0 <=? 0) && (0 <=? 0) && (0 <=? cap a)) with true in Eb by lia. injection Eb as <-.
    unfold upto. change (zlen (@nil T)) with 0. f_equal; destruct (cap a - 0 =? 0); lia. }
  assert (Eh : over h a pre l spare post [] = h) by (apply (inplace_id h a pre l spare post V)).
  destruct (collect_inplace (W := W) h a pre l spare post V zero growth fuel s0 i0 [] w) as (r' & s3 & i3 & out3 & w3 & E3 & E4 & Hi);
    [change (zlen (@nil T)) with 0; lia|].
  rewrite E2 in E3. injection E3 as <- _ <- <- <-. rewrite Eh in E4. rewrite E4.
  do 5 eexists. split; [reflexivity|].
  assert (Hp : zlen (pipeline gs l) <= zlen l) by (unfold zlen; lia).
  split; [exact (view_elems _ _ _ _ _ _ (over_upto h a pre l spare post V _ Hp))|]. split; reflexivity.
Qed.
Print Assumptions C111_pipeline.

(** Instances.  Keeping the odd numbers of a slice in place, with more of the
    array on both sides. *)
Definition ex_heap : heap Z := [[]; []; [100; 1; 2; 3; 4; 5; 200; 300]].
Definition ex_slice : slice := mkSlice 2 1 5 6.
Example C111_pipeline_example : exists s' i' b' w',
  (calls (liveSlice ex_slice) (map withinB (map withinB [BFilter (quiet Z.odd); BMap (quiet (Z.mul 10))])) ;;
   Collect (liveSlice ex_slice) 20 (appendTo 0 (fun _ n => n))) (Stream_Model.New, (0, (ex_heap, (mkSlice 2 1 0 6, tt)))) =
    (Ok tt, (s', (i', ([[]; []; [100; 10; 30; 50; 4; 5; 200; 300]], (b', w'))))).
Proof. do 4 eexists. vm_compute. reflexivity. Qed.
Example C111_valid_example : valid ex_heap ex_slice /\ reslice ex_slice 0 0 ex_heap = (Ok (mkSlice 2 1 0 6), ex_heap) /\
  Forall2 (stands (fun _ : unit => tt)) [BFilter (quiet Z.odd); BMap (quiet (Z.mul 10))] [SFilter Z.odd; SMap (Z.mul 10)].
Proof.
  split; [|split; [reflexivity|]].
  - repeat split; cbn; try lia. eexists. split; [reflexivity|]. cbn. lia.
  - repeat constructor; intros x w; exists w; split; reflexivity.
Qed.
(** A consumer that adds each element to the next one sees its own writes: the
    running sums. *)
Definition addAhead (v : Z) : X (heap Z * Z) unit := fun '(h, i) =>
  if i =? 4 then (Ok tt, (h, i + 1)) else
  match index ex_slice (i + 1) h with
  | (Ok x, _) => let '(r, h') := assign ex_slice (i + 1) (x + v) h in (r, (h', i + 1))
  | (Panic e, h') => (Panic e, (h', i))
  | (Diverge, h') => (Diverge, (h', i))
  end.
Example C111_ahead_example :
  effect (Collect (liveSlice ex_slice) 9 addAhead (Stream_Model.New, (0, (ex_heap, 0)))) = (Ok tt, ([[]; []; [100; 1; 3; 6; 10; 15; 200; 300]], 5)).
Proof.
  unfold Stream_Model.New. rewrite C111_loop; [reflexivity|constructor|cbn; lia|cbn; lia].
Qed.
(** A consumer that appends to the slice while it is read does not make the
    stream longer. *)
Example C111_append_example : exists h b,
  effect (Collect (liveSlice ex_slice) 9 (appendTo 0 (fun _ n => n)) (Stream_Model.New, (0, (ex_heap, (ex_slice, tt))))) =
    (Ok tt, (h, (b, tt))) /\ elems h b = [1; 2; 3; 4; 5; 1; 2; 3; 4; 5].
Proof. do 2 eexists. split; vm_compute; reflexivity. Qed.
(** A stage that panics half way, with Skip and Limit before it: what was
    collected until then is in place. *)
Example C111_in_place_example : exists s' i' h' b',
  Collect (liveSlice ex_slice) 9 (appendTo 0 (fun _ n => n))
    (within_ (within_ (mkStream true [OLimit 4; OSkip 1; OMap (fun x w => if x =? 4 then (Panic "four", w) else (Ok (- x), w))] true)),
     (0, (ex_heap, (mkSlice 2 1 0 6, tt)))) = (Panic "four", (s', (i', (h', (b', tt))))) /\ elems h' b' = [-2; -3].
Proof. do 4 eexists. split; vm_compute; reflexivity. Qed.

(** ** C49, slices: iterators of slices that start at different cells are refused
    when the stream is made, and nothing is read. *)
Theorem C49_other_slice {T} (s t : slice) i j b e (h : heap T) :
  IteratorAt s i h = (Ok b, h) -> IteratorAt t j h = (Ok e, h) ->
  (arr s, off s) <> (arr t, off t) -> exists m, OfIterators sliceOps e b h = (Panic m, h).
Proof.
  unfold IteratorAt. intros Hb He D.
  destruct ((i <? 0) || (len s <? i)); [discriminate|]. destruct ((j <? 0) || (len t <? j)); [discriminate|].
  injection Hb as <-. injection He as <-. unfold OfIterators, xbind. cbn [Equal sliceOps sl].
  destruct (ReferenceEqual s t) eqn:E.
  - exfalso. apply D. unfold ReferenceEqual in E. apply andb_prop in E as [E1 E2].
    apply Nat.eqb_eq in E1. apply Z.eqb_eq in E2. congruence.
  - cbn. eexists. reflexivity.
Qed.
Print Assumptions C49_other_slice.
(** Two windows of one array that start at different cells. *)
Example C49_other_slice_case : let h : heap Z := [[10; 20; 30]] in
  let s := {| arr := 0; off := 0; len := 3; cap := 3 |} in let t := {| arr := 0; off := 1; len := 2; cap := 2 |} in
  exists b e, IteratorAt s 0 h = (Ok b, h) /\ IteratorAt t 2 h = (Ok e, h) /\
    exists m, OfIterators sliceOps e b h = (Panic m, h).
Proof. do 2 eexists. split; [reflexivity|]. split; [reflexivity|]. eexists. reflexivity. Qed.
