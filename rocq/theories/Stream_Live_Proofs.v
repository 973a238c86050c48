(** Proofs for streams over shared memory. *)
From Coq Require Import Lia.
From Verif Require Import Base Arr Exn GoSlice GoSlice_Proofs Iter_Model Stream_Model Stream_Spec Stream_Sources XSlice_Model Stream_Live_Model Stream_Live_Spec.
Local Open Scope exn_scope.
Local Open Scope list_scope.
Local Open Scope Z_scope.

(** ** Lifted callbacks *)
Section Lift.
  Context {Y W T : Type}.

  Lemma bind_onWorld {Z' A B} (m : X W A) (k : A -> X (Z' * W) B) (z : Z') w :
    xbind (onWorld m) k (z, w) =
    match m w with (Ok a, w') => k a (z, w') | (Panic e, w') => (Panic e, (z, w')) | (Diverge, w') => (Diverge, (z, w')) end.
  Proof. unfold xbind, onWorld. now destruct (m w) as [[]]. Qed.
  Lemma bind_onWorld2 {Z' A B} (m : X W A) (k : A -> X (Z' * (Y * W)) B) (z : Z') y w :
    xbind (onWorld (onWorld m)) k (z, (y, w)) =
    match m w with (Ok a, w') => k a (z, (y, w')) | (Panic e, w') => (Panic e, (z, (y, w')))
                 | (Diverge, w') => (Diverge, (z, (y, w'))) end.
  Proof. unfold xbind, onWorld. now destruct (m w) as [[]]. Qed.

  Lemma stages_within (todo done : list (op W T)) v os (y : Y) w :
    stages (map within done) (map within todo) v (map within os, (y, w)) =
    let '(r, (os', w')) := stages done todo v (os, w) in (r, (map within os', (y, w'))).
  Proof.
    revert done v os w. induction todo as [|o todo IH]; intros done v os w; [reflexivity|].
    assert (E : forall x, map (@within Y W T) done ++ [within x] = map within (done ++ [x])) by (intros; now rewrite map_app).
    pose proof (E o) as Eo.
    destruct o as [p|n|n|f|c]; cbn [map within stages] in Eo |- *.
    - rewrite bind_onWorld, bind_onWorld2. destruct (p v w) as [[b| |] w']; try reflexivity.
      destruct b; [|reflexivity]. rewrite Eo. apply IH.
    - destruct (n >? 0).
      + unfold xbind, xget, xput, xret. cbn. now rewrite map_app.
      + rewrite Eo. apply IH.
    - destruct (n >? 0); [|reflexivity].
      unfold xbind, xget, xput. cbn [snd]. change (@OLimit (Y * W) T (n - 1)) with (@within Y W T (OLimit (n - 1))).
      rewrite (E (OLimit (n - 1))).
      replace (map within done ++ within (OLimit (n - 1)) :: map within todo) with (map (@within Y W T) (done ++ OLimit (n - 1) :: todo))
        by now rewrite map_app.
      apply IH.
    - rewrite bind_onWorld, bind_onWorld2. destruct (f v w) as [[b| |] w']; try reflexivity.
      rewrite Eo. apply IH.
    - rewrite bind_onWorld, bind_onWorld2. destruct (c v w) as [[b| |] w']; try reflexivity.
      rewrite Eo. apply IH.
  Qed.
End Lift.

Lemma nextLoop_step {S W T} (src : source S W T) fuel s z w :
  nextLoop src (Datatypes.S fuel) (s, (z, w)) =
  match sNext src (z, w) with
  | (Ok None, (z', w')) => (Ok None, (mkStream false [] (hasPred s), (z', w')))
  | (Ok (Some v), (z', w')) =>
      match stages [] (ops s) v (ops s, w') with
      | (Ok (Emit v), (os, w'')) => (Ok (Some v), (mkStream (live s) os (hasPred s), (z', w'')))
      | (Ok Reject, (os, w'')) => nextLoop src fuel (mkStream (live s) os (hasPred s), (z', w''))
      | (Ok Stop, (os, w'')) => (Ok None, (mkStream false [] (hasPred s), (z', w'')))
      | (Panic e, (os, w'')) => (Panic e, (mkStream (live s) os (hasPred s), (z', w'')))
      | (Diverge, (os, w'')) => (Diverge, (mkStream (live s) os (hasPred s), (z', w'')))
      end
  | (Panic e, (z', w')) => (Panic e, (s, (z', w')))
  | (Diverge, (z', w')) => (Diverge, (s, (z', w')))
  end.
Proof.
  cbn [nextLoop]. unfold xbind, onSource, runStages, clear, xret.
  destruct (sNext src (z, w)) as [[[v|]| |] [z' w']]; try reflexivity.
  destruct (stages [] (ops s) v (ops s, w')) as [[[]| |] [os w'']]; reflexivity.
Qed.

Lemma next_step {S W T} (src : source S W T) fuel s z w :
  Next_ src fuel (s, (z, w)) = if live s then nextLoop src fuel (s, (z, w)) else (Ok None, (mkStream false [] (hasPred s), (z, w))).
Proof. unfold Next_, xbind, xget. cbn [fst]. now destruct (live s). Qed.
Lemma collect_step {S W T} (src : source S W T) fuel c s z w :
  Collect src (Datatypes.S fuel) c (s, (z, w)) =
  match Next_ src (Datatypes.S fuel) (s, (z, w)) with
  | (Ok None, st) => (Ok tt, st)
  | (Ok (Some v), (s', (z', w'))) =>
      match c v w' with
      | (Ok _, w'') => Collect src fuel c (s', (z', w''))
      | (Panic e, w'') => (Panic e, (s', (z', w'')))
      | (Diverge, w'') => (Diverge, (s', (z', w'')))
      end
  | (Panic e, st) => (Panic e, st)
  | (Diverge, st) => (Diverge, st)
  end.
Proof.
  cbn [Collect]. unfold xbind. destruct (Next_ src (Datatypes.S fuel) (s, (z, w))) as [[[v|]| |] [s' [z' w']]]; try reflexivity.
  unfold onCallback, onSource, onWorld. now destruct (c v w') as [[] ?].
Qed.

(** ** Next on the live slice, as long as the elements ahead are those of [l] *)
Section Next.
  Context {W T : Type} (a : slice) (l : list T).
  Hypothesis Hl : zlen l = len a.

  Definition ahead (h : heap T) (i : Z) : Prop :=
    valid h a /\ forall k, i <= k < len a -> zget (elems h a) k = zget l k.

  Lemma ahead_le h i j : ahead h i -> i <= j -> ahead h j.
  Proof. intros [H1 H2] Hj. split; [assumption|]. intros k Hk. apply H2. lia. Qed.

  Lemma index_ahead h i : ahead h i -> 0 <= i < len a -> exists x, zget l i = Some x /\ index a i h = (Ok x, h).
  Proof.
    intros [Hv Ha] Hi. destruct (zget_some l i) as [x Hx]; [lia|]. exists x. split; [assumption|].
    destruct (valid_view h a Hv) as (pre & liv & spare & post & V).
    eapply index_view; [eassumption|]. rewrite <- (view_elems _ _ _ _ _ _ V). rewrite Ha by lia. assumption.
  Qed.

  Lemma nextLoop_live fuel : forall (s : stream W T) i h w, ahead h i -> 0 <= i <= len a ->
    exists r s' i' w', nextLoop (sliceSource l) fuel (s, (i, w)) = (r, (s', (i', w'))) /\
      nextLoop (liveSlice a) fuel (within_ s, (i, (h, w))) = (r, (within_ s', (i', (h, w')))) /\
      i <= i' <= len a /\ (forall x, r = Ok (Some x) -> i < i').
  Proof.
    induction fuel as [|fuel IH]; intros s i h w Ha Hi.
    - exists Diverge, s, i, w. cbn. repeat apply conj; try lia; try reflexivity; try discriminate.
    - rewrite !nextLoop_step. cbn [sNext sliceSource liveSlice]. rewrite Hl.
      destruct (Z.eqb_spec i (len a)) as [->|Hne].
      + exists (Ok None), (mkStream false [] (hasPred s)), (len a), w. repeat apply conj; try (intros; lia); try (intros; discriminate); try reflexivity.
      + destruct (index_ahead h i Ha) as (x & Hx & Ex); [lia|]. rewrite Hx. unfold onHeap. rewrite Ex.
        cbn [within_ ops live hasPred].
        pose proof (stages_within (Y := heap T) (ops s) [] x (ops s) h w) as Es. cbn [map] in Es. rewrite Es. clear Es.
        destruct (stages [] (ops s) x (ops s, w)) as [[d|e|] [os' w']].
        * destruct d as [v| |].
          -- exists (Ok (Some v)), (mkStream (live s) os' (hasPred s)), (i + 1), w'.
             repeat apply conj; try reflexivity; lia.
          -- destruct (IH (mkStream (live s) os' (hasPred s)) (i + 1) h w') as (r & s' & i' & w'' & E1 & E2 & Hi' & _);
               [eapply ahead_le; [eassumption|lia]|lia|].
             exists r, s', i', w''. cbn [within_] in E2. repeat apply conj; try assumption; try lia. 
          -- exists (Ok None), (mkStream false [] (hasPred s)), (i + 1), w'. repeat apply conj; try reflexivity; try lia.
        * exists (Panic e), (mkStream (live s) os' (hasPred s)), (i + 1), w'. repeat apply conj; try reflexivity; try lia.
        * exists Diverge, (mkStream (live s) os' (hasPred s)), (i + 1), w'. repeat apply conj; try reflexivity; try lia.
  Qed.

  Lemma next_live fuel (s : stream W T) i h w : ahead h i -> 0 <= i <= len a ->
    exists r s' i' w', Next_ (sliceSource l) fuel (s, (i, w)) = (r, (s', (i', w'))) /\
      Next_ (liveSlice a) fuel (within_ s, (i, (h, w))) = (r, (within_ s', (i', (h, w')))) /\
      i <= i' <= len a /\ (forall x, r = Ok (Some x) -> i < i').
  Proof.
    intros Ha Hi. unfold Next_, xbind at 1 3, xget. cbn [fst within_ live]. destruct (live s) eqn:E.
    - now apply nextLoop_live.
    - exists (Ok None), (mkStream false [] (hasPred s)), i, w. repeat apply conj; try (intros; lia); try (intros; discriminate); try reflexivity.
  Qed.
End Next.

(** Next on the fixed slice, with something more in the world. *)
Section Fixed.
  Context {Y W T : Type} (l : list T).

  Lemma nextLoop_fixed fuel : forall (s : stream W T) i (y : Y) w,
    nextLoop (sliceSource l) fuel (within_ s, (i, (y, w))) =
    let '(r, (s', (i', w'))) := nextLoop (sliceSource l) fuel (s, (i, w)) in (r, (within_ s', (i', (y, w')))).
  Proof.
    induction fuel as [|fuel IH]; intros s i y w; [reflexivity|].
    rewrite !nextLoop_step. cbn [sNext sliceSource].
    destruct (i =? zlen l); [reflexivity|]. destruct (zget l i) as [x|]; [|reflexivity].
    cbn [within_ ops live hasPred].
    pose proof (stages_within (Y := Y) (ops s) [] x (ops s) y w) as Es. cbn [map] in Es. rewrite Es. clear Es.
    destruct (stages [] (ops s) x (ops s, w)) as [[d| |] [os' w']]; try reflexivity.
    destruct d as [v| |]; try reflexivity. apply (IH (mkStream (live s) os' (hasPred s))).
  Qed.
  Lemma next_fixed fuel (s : stream W T) i (y : Y) w :
    Next_ (sliceSource l) fuel (within_ s, (i, (y, w))) =
    let '(r, (s', (i', w'))) := Next_ (sliceSource l) fuel (s, (i, w)) in (r, (within_ s', (i', (y, w')))).
  Proof.
    unfold Next_, xbind at 1 3, xget. cbn [fst within_ live]. destruct (live s); [apply nextLoop_fixed|reflexivity].
  Qed.
End Fixed.

(** ** Collecting into the slice that is being read *)
Section InPlace.
  Context {W T : Type} (h : heap T) (a : slice) (pre l spare post : list T).
  Hypothesis V : view h a pre l spare post.

  Definition over (out : list T) : heap T := inplace h a pre (out ++ skipn (List.length out) l) spare post.
  Definition upto (out : list T) : slice := mkSlice (arr a) (off a) (zlen out) (cap a).

  Lemma zlen_over out : zlen out <= zlen l -> zlen (out ++ skipn (List.length out) l) = zlen l.
  Proof. intros H. rewrite zlen_app. unfold zlen in *. rewrite skipn_length. lia. Qed.

  Lemma over_view out : zlen out <= zlen l -> view (over out) a pre (out ++ skipn (List.length out) l) spare post.
  Proof. intros H. eapply view_inplace_same; [exact V|]. now apply zlen_over. Qed.

  Lemma over_upto out : zlen out <= zlen l -> view (over out) (upto out) pre out (skipn (List.length out) l ++ spare) post.
  Proof.
    intros H. destruct (over_view out H) as [V1 V2 V3 V4]. rewrite (zlen_over out H) in *.
    split; cbn [upto arr off len cap]; try assumption; try reflexivity.
    - rewrite V1. f_equal. now rewrite <- !app_assoc.
    - rewrite V4, zlen_app. unfold zlen in *. rewrite skipn_length. lia.
  Qed.

  Lemma over_ahead out i : zlen out <= i <= zlen l -> ahead a l (over out) i.
  Proof.
    intros H. pose proof (over_view out ltac:(lia)) as Vo. pose proof (vw_len _ _ _ _ _ _ V) as Ha.
    split; [eapply view_valid; exact Vo|].
    intros k Hk. rewrite (view_elems _ _ _ _ _ _ Vo). unfold zget. destruct (Z.ltb_spec k 0); [reflexivity|].
    unfold zlen in *. rewrite nth_error_app2 by lia. 
    rewrite <- (firstn_skipn (List.length out) l) at 2. rewrite nth_error_app2 by (rewrite firstn_length; lia).
    f_equal. rewrite firstn_length. lia.
  Qed.

  Context (zero : T) (growth : Z -> Z -> Z).
  Lemma append_over out v (w : W) : zlen out < zlen l ->
    appendTo zero growth v (over out, (upto out, w)) = (Ok tt, (over (out ++ [v]), (upto (out ++ [v]), w))).
  Proof.
    intros H. pose proof (over_upto out ltac:(lia)) as Vo.
    destruct (skipn (List.length out) l) as [|x rest] eqn:E.
    { exfalso. pose proof (skipn_length (List.length out) l) as L. rewrite E in L. cbn in L. unfold zlen in H. lia. }
    unfold appendTo, Append_, modify, xbind, xget, onVar, xput. cbn [snd fst].
    change ((x :: rest) ++ spare) with ([x] ++ (rest ++ spare)) in Vo.
    rewrite (append_room zero growth _ _ _ _ [v] [x] _ _ Vo eq_refl).
    repeat f_equal. unfold over, inplace. cbn [upto arr]. rewrite upd_upd. f_equal.
    rewrite app_length. cbn [List.length]. rewrite Nat.add_comm, <- skipn_skipn', E. cbn [skipn].
    rewrite <- !app_assoc. reflexivity.
  Qed.

  Lemma collect_inplace fuel : forall (s : stream W T) i out w, zlen out <= i <= len a ->
    exists r s' i' out' w',
      Collect (sliceSource l) fuel note (within_ s, (i, (out, w))) = (r, (within_ s', (i', (out', w')))) /\
      Collect (liveSlice a) fuel (appendTo zero growth) (within_ (within_ s), (i, (over out, (upto out, w)))) =
        (r, (within_ (within_ s'), (i', (over out', (upto out', w'))))) /\ zlen out' <= i' <= len a.
  Proof.
    pose proof (vw_len _ _ _ _ _ _ V) as Ha.
    induction fuel as [|fuel IH]; intros s i out w Hi.
    { exists Diverge, s, i, out, w. repeat apply conj; try reflexivity; lia. }
    cbn [Collect]. unfold xbind at 1 3. rewrite next_fixed.
    assert (Hi' : 0 <= i <= len a) by (pose proof (zlen_nonneg out); lia).
    assert (Hah : ahead a l (over out) i) by (apply over_ahead; lia).
    pose proof (next_fixed (Y := slice) l (Datatypes.S fuel) s i (upto out) w) as Ef.
    destruct (next_live (W := slice * W) a l (eq_sym Ha) (Datatypes.S fuel) (within_ s) i (over out) (upto out, w) Hah Hi')
      as (r & s1 & i1 & w1 & E1 & E2 & Hi1 & Hs).
    rewrite E1 in Ef. destruct (Next_ (sliceSource l) (Datatypes.S fuel) (s, (i, w))) as [r0 [s0 [i0 w0]]].
    injection Ef as -> -> -> ->. rewrite E2.
    destruct r0 as [[x|]|e|].
    - unfold xbind, onCallback, onSource, onWorld. cbn [note]. specialize (Hs x eq_refl).
      rewrite append_over by lia.
      destruct (IH s0 i0 (out ++ [x]) w0) as (r & s' & i' & out' & w' & C1 & C2 & Hf); [rewrite zlen_app; change (zlen [x]) with 1; lia|].
      exists r, s', i', out', w'. repeat apply conj; try assumption; lia.
    - exists (Ok tt), s0, i0, out, w0. repeat apply conj; try reflexivity; lia.
    - exists (Panic e), s0, i0, out, w0. repeat apply conj; try reflexivity; lia.
    - exists Diverge, s0, i0, out, w0. repeat apply conj; try reflexivity; lia.
  Qed.
End InPlace.

(** ** Collect is the range loop *)
Lemma rangeLoop_step {V T} (a : slice) (body : T -> X (heap T * V) unit) k i hv :
  rangeLoop a body (Datatypes.S k) i hv =
  match onHeap (index a i) hv with
  | (Ok v, hv') => match body v hv' with
                   | (Ok _, hv'') => rangeLoop a body k (i + 1) hv''
                   | (Panic e, hv'') => (Panic e, hv'')
                   | (Diverge, hv'') => (Diverge, hv'')
                   end
  | (Panic e, hv') => (Panic e, hv')
  | (Diverge, hv') => (Diverge, hv')
  end.
Proof. cbn [rangeLoop]. unfold xbind. destruct (onHeap _ _) as [[v| |] hv']; reflexivity. Qed.

Section Loop.
  Context {V T : Type} (a : slice) (os : list (op (heap T * V) T)) (c : T -> X (heap T * V) unit).
  Hypothesis Hos : Forall uncounted os.

  Lemma stages_through todo : Forall uncounted todo -> forall done v os0 hv,
    exists r hv', stages done todo v (os0, hv) = (r, (os0, hv')) /\ r <> Ok Stop /\
      through todo c v hv = match r with
                            | Ok (Emit v') => c v' hv'
                            | Ok _ => (Ok tt, hv')
                            | Panic e => (Panic e, hv')
                            | Diverge => (Diverge, hv')
                            end.
  Proof.
    induction 1 as [|o todo Ho _ IH]; intros done v os0 hv; [exists (Ok (Emit v)), hv; repeat apply conj; easy|].
    destruct o as [p|n|n|f|q]; try easy; cbn [stages through]; rewrite bind_onWorld; unfold xbind at 1.
    - destruct (p v hv) as [[b|e|] hv'].
      + destruct b; [apply IH|]. exists (Ok Reject), hv'. repeat apply conj; easy.
      + exists (Panic e), hv'. repeat apply conj; easy.
      + exists Diverge, hv'. repeat apply conj; easy.
    - destruct (f v hv) as [[b|e|] hv'].
      + apply IH.
      + exists (Panic e), hv'. repeat apply conj; easy.
      + exists Diverge, hv'. repeat apply conj; easy.
    - destruct (q v hv) as [[b|e|] hv'].
      + apply IH.
      + exists (Panic e), hv'. repeat apply conj; easy.
      + exists Diverge, hv'. repeat apply conj; easy.
  Qed.

  Lemma nextLoop_loop k : forall fuel i hp hv, (k < fuel)%nat -> len a = i + Z.of_nat k ->
    exists r s' i' hv', nextLoop (liveSlice a) fuel (mkStream true os hp, (i, hv)) = (r, (s', (i', hv'))) /\
      match r with
      | Ok None => rangeLoop a (through os c) k i hv = (Ok tt, hv')
      | Ok (Some v) => exists k', (k' < k)%nat /\ i' = len a - Z.of_nat k' /\ s' = mkStream true os hp /\
          rangeLoop a (through os c) k i hv = (c v ;; rangeLoop a (through os c) k' i') hv'
      | Panic e => rangeLoop a (through os c) k i hv = (Panic e, hv')
      | Diverge => rangeLoop a (through os c) k i hv = (Diverge, hv')
      end.
  Proof.
    induction k as [|k IH]; intros fuel i hp hv Hf Hk; (destruct fuel as [|fuel]; [lia|]); rewrite nextLoop_step; cbn [sNext liveSlice].
    - replace (i =? len a) with true by lia. do 4 eexists. split; [reflexivity|]. reflexivity.
    - replace (i =? len a) with false by lia. rewrite rangeLoop_step.
      destruct (onHeap (index a i) hv) as [[x|e|] hv1].
      2,3: do 4 eexists; (split; [reflexivity|]); reflexivity.
      cbn [ops live hasPred]. destruct (stages_through os Hos [] x os hv1) as (r & hv2 & E & Hn & Et).
      rewrite E, Et. destruct r as [d|e|].
      2,3: do 4 eexists; (split; [reflexivity|]); reflexivity.
      destruct d as [v'| |]; [| |easy].
      + do 4 eexists. split; [reflexivity|]. exists k. repeat apply conj; try lia; try reflexivity.
      + destruct (IH fuel (i + 1) hp hv2) as (r & s' & i' & hv' & E1 & E2); [lia|lia|].
        exists r, s', i', hv'. split; [exact E1|]. destruct r as [[v|]| |]; try exact E2.
        destruct E2 as (k' & Hk' & E3 & E4 & E5). exists k'. repeat apply conj; try assumption. lia.
  Qed.

  Lemma collect_loop k : forall fuel i hp hv, (k < fuel)%nat -> len a = i + Z.of_nat k ->
    effect (Collect (liveSlice a) fuel c (mkStream true os hp, (i, hv))) = rangeLoop a (through os c) k i hv.
  Proof.
    induction k as [k IH] using lt_wf_ind. intros fuel i hp hv Hf Hk.
    destruct fuel as [|fuel]; [lia|].
    destruct (nextLoop_loop k (Datatypes.S fuel) i hp hv Hf Hk) as (r & s' & i' & hv' & E & Er).
    cbn [Collect]. unfold Next_ at 1, xbind at 1 2, xget. cbn [fst live]. rewrite E.
    destruct r as [[v|]|e|]; [|rewrite Er; reflexivity..].
    destruct Er as (k' & Hk' & -> & -> & ->). unfold xbind, onCallback, onSource, onWorld.
    destruct (c v hv') as [[u|e|] hv2]; [|reflexivity..]. apply IH; lia.
  Qed.
End Loop.

(** ** Iterators of a slice are the slice source *)
Section Iterators.
  Context {V T : Type} (a : slice) (random : bool).
  Local Notation its := (liveIterators (V := V) (T := T) sliceOps random (mkIt (len a) a)).

  Lemma itNext_eq i (hv : heap T * V) : 0 <= i <= len a ->
    match sNext (liveSlice a) (i, hv) with
    | (Ok None, (i', hv')) => i' = i /\ sNext its (mkIt i a, hv) = (Ok None, (mkIt i a, hv'))
    | (Ok (Some x), (i', hv')) => i' = i + 1 /\ i < len a /\ sNext its (mkIt i a, hv) = (Ok (Some x), (mkIt i' a, hv'))
    | (r, (_, hv')) => exists cur, sNext its (mkIt i a, hv) = (r, (cur, hv'))
    end.
  Proof.
    intros Hi. destruct hv as [h v]. cbn [sNext liveSlice liveIterators iteratorSource].
    unfold itNext, xbind, atCur. cbn [Equal sliceOps pos sl]. unfold ReferenceEqual. rewrite Nat.eqb_refl, Z.eqb_refl. cbn [negb andb].
    unfold xret at 1. rewrite (Z.eqb_sym (len a) i). unfold onHeap.
    destruct (Z.eqb_spec i (len a)) as [->|Hne]; [split; reflexivity|]. unfold xret. cbn -[index Z.geb].
    destruct (index a i h) as [[x|e|] h'].
    - split; [reflexivity|]. split; [lia|]. cbn [pos sl]. replace (i >=? len a) with false by lia. reflexivity.
    - eexists. reflexivity.
    - eexists. reflexivity.
  Qed.

  Lemma nextLoop_its fuel : forall s i hv, 0 <= i <= len a ->
    match nextLoop (liveSlice a) fuel (s, (i, hv)) with
    | (Ok x, (s', (i', hv'))) => 0 <= i' <= len a /\ nextLoop its fuel (s, (mkIt i a, hv)) = (Ok x, (s', (mkIt i' a, hv')))
    | (r, (s', (_, hv'))) => exists cur, nextLoop its fuel (s, (mkIt i a, hv)) = (r, (s', (cur, hv')))
    end.
  Proof.
    induction fuel as [|fuel IH]; intros s i hv Hi; [cbn; eexists; reflexivity|].
    rewrite !nextLoop_step. pose proof (itNext_eq i hv Hi) as E.
    destruct (sNext (liveSlice a) (i, hv)) as [[[x|]|e|] [i' hv']].
    - destruct E as (-> & Hlt & ->). destruct (stages [] (ops s) x (ops s, hv')) as [[[v| |]|e|] [os' hv'']].
      + split; [lia|reflexivity].
      + apply IH. lia.
      + split; [lia|reflexivity].
      + eexists. reflexivity.
      + eexists. reflexivity.
    - destruct E as (-> & ->). split; [lia|reflexivity].
    - destruct E as (cur & ->). eexists. reflexivity.
    - destruct E as (cur & ->). eexists. reflexivity.
  Qed.

  Lemma collect_its fuel c : forall s i hv, 0 <= i <= len a ->
    effect (Collect its fuel c (s, (mkIt i a, hv))) = effect (Collect (liveSlice a) fuel c (s, (i, hv))).
  Proof.
    induction fuel as [|fuel IH]; intros s i hv Hi; [reflexivity|].
    rewrite !collect_step, !next_step. destruct (live s); [|reflexivity].
    pose proof (nextLoop_its (Datatypes.S fuel) s i hv Hi) as E.
    destruct (nextLoop (liveSlice a) (Datatypes.S fuel) (s, (i, hv))) as [[[x|]|e|] [s' [i' hv']]].
    - destruct E as (Hi' & ->). destruct (c x hv') as [[u|e|] hv2]; [|reflexivity..]. now apply IH.
    - destruct E as (Hi' & ->). reflexivity.
    - destruct E as (cur & ->). reflexivity.
    - destruct E as (cur & ->). reflexivity.
  Qed.
End Iterators.

(** ** Builder calls *)
Section Builders.
  Context {W T : Type}.

  Lemma call_fixed {Y} (l : list T) (cs : list (build W T)) : forall s i (y : Y) w,
    calls (sliceSource l) (map withinB cs) (within_ s, (i, (y, w))) =
    let '(r, (s', (i', w'))) := calls (sliceSource l) cs (s, (i, w)) in (r, (within_ s', (i', (y, w')))).
  Proof.
    induction cs as [|c cs IH]; intros s i y w; [reflexivity|]. cbn [map calls]. unfold xbind at 1 2.
    assert (E : call (sliceSource l) (withinB c) (within_ s, (i, (y, w))) =
      let '(r, (s', (i', w'))) := call (sliceSource l) c (s, (i, w)) in (r, (within_ s', (i', (y, w'))))).
    { destruct s as [lv os hp]. destruct c as [f|p|n|n|c]; cbn [withinB call]; unfold Map_, Filter, Skip, Limit, Peek, addOp, within_; cbn [ops live hasPred].
      - now rewrite map_app.
      - now rewrite map_app.
      - destruct (n <? 0); [reflexivity|]. destruct (n =? 0); [reflexivity|]. unfold xbind, xget. cbn [fst hasPred live].
        destruct hp; cbn [negb ops live hasPred]; [now rewrite map_app|]. destruct lv; [|reflexivity].
        unfold onSource. cbn [sSkip sliceSource]. destruct (n <? 0); [reflexivity|]. now destruct (wrapInt (i + n) >=? zlen l).
      - destruct (n <? 0); [reflexivity|]. cbn [ops live hasPred]. now rewrite map_app.
      - now rewrite map_app. }
    rewrite E. destruct (call (sliceSource l) c (s, (i, w))) as [[u|e|] [s' [i' w']]]; [apply IH|reflexivity..].
  Qed.

  Lemma call_live (a : slice) (l : list T) (cs : list (build W T)) : zlen l = len a -> forall s i (h : heap T) w,
    calls (liveSlice a) (map withinB cs) (within_ s, (i, (h, w))) =
    let '(r, (s', (i', w'))) := calls (sliceSource l) cs (s, (i, w)) in (r, (within_ s', (i', (h, w')))).
  Proof.
    intros Hl. induction cs as [|c cs IH]; intros s i h w; [reflexivity|]. cbn [map calls]. unfold xbind at 1 2.
    assert (E : call (liveSlice a) (withinB c) (within_ s, (i, (h, w))) =
      let '(r, (s', (i', w'))) := call (sliceSource l) c (s, (i, w)) in (r, (within_ s', (i', (h, w'))))).
    { destruct s as [lv os hp]. destruct c as [f|p|n|n|c]; cbn [withinB call]; unfold Map_, Filter, Skip, Limit, Peek, addOp, within_; cbn [ops live hasPred].
      - now rewrite map_app.
      - now rewrite map_app.
      - destruct (n <? 0); [reflexivity|]. destruct (n =? 0); [reflexivity|]. unfold xbind, xget. cbn [fst hasPred live].
        destruct hp; cbn [negb ops live hasPred]; [now rewrite map_app|]. destruct lv; [|reflexivity].
        unfold onSource. cbn [sSkip sliceSource liveSlice]. rewrite Hl. destruct (n <? 0); [reflexivity|].
        now destruct (wrapInt (i + n) >=? len a).
      - destruct (n <? 0); [reflexivity|]. cbn [ops live hasPred]. now rewrite map_app.
      - now rewrite map_app. }
    rewrite E. destruct (call (sliceSource l) c (s, (i, w))) as [[u|e|] [s' [i' w']]]; [apply IH|reflexivity..].
  Qed.

  Lemma skips_nonneg {O} (obs : W -> O) cs (gs : list (stage T)) : Forall2 (stands obs) cs gs -> 0 <= skips gs.
  Proof. induction 1 as [|c g cs gs H _ IH]; [reflexivity|]. destruct H; cbn [skips]; lia. Qed.

  Lemma calls_range {O} (obs : W -> O) (l : list T) cs (gs : list (stage T)) : Forall2 (stands obs) cs gs ->
    forall s i w, live s = true -> 0 <= i <= zlen l -> zlen l + skips gs <= maxInt ->
    exists s' i', calls (sliceSource l) cs (s, (i, w)) = (Ok tt, (s', (i', w))) /\ 0 <= i' <= zlen l.
  Proof.
    induction 1 as [|c g cs gs H Hs IH]; intros s i w Hv Hi Hb; [exists s, i; auto|].
    pose proof (skips_nonneg _ _ _ Hs) as Hn. cbn [calls]. unfold xbind at 1.
    destruct H as [f g _|p q _|n H0|n H0|c _]; cbn [call skips] in *.
    - apply IH; auto.
    - apply IH; auto.
    - unfold Skip. replace (n <? 0) with false by lia. destruct (n =? 0) eqn:En; [apply IH; try assumption; lia|].
      unfold xbind, xget. cbn [fst]. destruct (hasPred s); cbn [negb]; [apply IH; cbn [live]; try assumption; lia|].
      rewrite Hv. unfold onSource. cbn [sSkip sliceSource]. replace (n <? 0) with false by lia.
      unfold maxInt in Hb. rewrite wrapInt_id by lia.
      destruct (i + n >=? zlen l) eqn:E; apply IH; try assumption; unfold maxInt; lia.
    - unfold Limit. replace (n <? 0) with false by lia. apply IH; auto.
    - apply IH; auto.
  Qed.
End Builders.
