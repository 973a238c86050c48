(** Properties of Slice variables over histories, and of iterators kept
    meanwhile (C101, C102). *)
From Verif Require Import Base Arr Exn GoSlice GoSlice_Proofs Iter_Model Iter_Spec Algo_Proofs XSlice_Model XSlice_Spec XSlice_Proofs XSlice_Facts XSlice_Hist_Spec XSlice_Hist_Proofs.
Local Open Scope exn_scope.
Local Open Scope string_scope.
Local Open Scope list_scope.
Local Open Scope Z_scope.

(** ** C101: a Slice variable is a list *)

(** Whatever is called on it, the calls that panic are those that must, and the
    elements are those of the list; a call that panics changes nothing. *)
Theorem C101_history {T} (zero : T) growth (h : heap T) (s : slice) es :
  valid h s ->
  forall rs h' s', runOps (perform zero growth) es (h, s) = (rs, (h', s')) ->
  valid h' s' /\ map returns rs = returned es (elems h s) /\ elems h' s' = afterAll es (elems h s).
Proof.
  intros Hv rs h' s' E. destruct (hist_ok zero growth es h s Hv) as (H1 & H2 & H3).
  unfold endState in *. rewrite E in *. auto.
Qed.
Print Assumptions C101_history.

(** Other slices: what is not in the memory of the variable, cap and all, is not
    touched by any history. *)
Theorem C101_others {T} (zero : T) growth (h : heap T) (s q : slice) es :
  valid h s -> valid h q -> arr q <> arr s ->
  forall rs h' s', runOps (perform zero growth) es (h, s) = (rs, (h', s')) -> elems h' q = elems h q.
Proof.
  intros Hv Hq Hne rs h' s' E. destruct Hq as (_ & _ & d & Hd & _).
  destruct (hist_apart zero growth es h s (arr q) d Hv ltac:(congruence) Hd) as [_ H].
  unfold endState in H. rewrite E in H. cbn [fst snd] in H.
  unfold elems. now rewrite (nth_error_nth _ _ _ Hd), (nth_error_nth _ _ _ H).
Qed.
Print Assumptions C101_others.

(** ** C102: iterators kept while the slice changes *)

(** As long as there never are more elements than the capacity was, an iterator
    taken before is an iterator of the slice now: Get and Set act on the element
    at its position, Insert inserts there, and it compares with new iterators by
    position.  If its position is past the end now, Get gives an element that
    was deleted, Set has no effect on the slice, and Insert panics.  It never
    gets past the end the slice had when it was taken. *)
Theorem C102_kept_partial {T} (zero : T) growth (h : heap T) (s : slice) it es :
  valid h s -> reach (T := T) s it -> outgrown (cap s) es (elems h s) = false ->
  forall rs h' s', runOps (perform zero growth) es (h, s) = (rs, (h', s')) ->
  let l := afterAll es (elems h s) in
  (forall p x q, l = p ++ x :: q -> pos it = zlen p -> pos it < len s ->
     Get sliceOps it h' = (Ok x, h') /\
     forall v, exists h'', Set_ sliceOps it v h' = (Ok tt, h'') /\ elems h'' s' = p ++ v :: q) /\
  (zlen l <= pos it < len s ->
     (exists x, Get sliceOps it h' = (Ok x, h')) /\
     forall v, exists h'', Set_ sliceOps it v h' = (Ok tt, h'') /\ elems h'' s' = l) /\
  (forall p q v, l = p ++ q -> pos it = zlen p -> exists it' h'' s'',
     Insert_ zero growth it v (h', s') = (Ok it', (h'', s'')) /\ elems h'' s'' = p ++ v :: q /\
     Get sliceOps it' h'' = (Ok v, h'')) /\
  (forall v, zlen l < pos it -> Insert_ zero growth it v (h', s') = (Panic "insert out of bound", (h', s'))) /\
  (forall it', reach (T := T) s' it' ->
     Equal sliceOps it it' h' = (Ok (pos it' =? pos it), h') /\ Equal sliceOps it' it h' = (Ok (pos it =? pos it'), h')) /\
  (pos it = len s -> Get sliceOps it h' = (Panic idx_msg, h') /\ Next sliceOps it h' = (Panic "increment out of bound", h')).
Proof.
  intros Hv Hr HG rs h' s' E. assert (H0 : 0 <= len s) by (destruct Hv as (_ & H & _); lia).
  destruct (reach_bounds (T := T) s it H0 Hr) as [Es Hp].
  destruct (valid_view _ _ Hv) as (pre & live & spare & post & V). rewrite (view_elems _ _ _ _ _ _ V) in *. intros l.
  destruct (hist_stays zero growth es h s _ _ _ _ V HG) as (sp & EL & ES). fold l in EL, ES. unfold endState in ES. rewrite E in ES. cbn [snd] in ES. injection ES as -> ->.
  pose proof V as [V1 V2 V3 V4].
  pose proof (view_inplace h s pre live spare post l sp V EL) as V'.
  set (h' := inplace h s pre l sp post) in *. set (s' := mkSlice (arr s) (off s) (zlen l) (cap s)) in *.
  assert (RE : ReferenceEqual s' s = true) by (unfold ReferenceEqual, s'; cbn [arr off]; rewrite Nat.eqb_refl, Z.eqb_refl; reflexivity).
  assert (RE' : ReferenceEqual s s' = true) by (unfold ReferenceEqual, s'; cbn [arr off]; rewrite Nat.eqb_refl, Z.eqb_refl; reflexivity).
  assert (W1 : nth_error h' (arr s) = Some (pre ++ l ++ sp ++ post)) by (destruct V' as [W1 _ _ _]; exact W1).
  (* the window of the iterator *)
  assert (VW : forall w r, l ++ sp = w ++ r -> zlen w = len s -> view h' s pre w r post).
  { intros w r Ew Lw. split; [|exact V2|lia|].
    - rewrite W1. f_equal. f_equal. rewrite !app_assoc. now rewrite Ew.
    - rewrite V4, <- EL. rewrite <- !zlen_app. now rewrite Ew. }
  assert (HW : exists w r, l ++ sp = w ++ r /\ zlen w = len s).
  { destruct (split_at (l ++ sp) (len s)) as (w & r & Ew & Lw); [zsimp; zpos; lia|]. eauto. }
  destruct HW as (w & r & Ew & Lw). pose proof (VW w r Ew Lw) as Vs.
  assert (GET : forall x, zget (l ++ sp) (pos it) = Some x -> pos it < len s -> Get sliceOps it h' = (Ok x, h')).
  { intros x Hx Hlt. cbn [sliceOps Get]. rewrite Es. eapply index_view; [exact Vs|]. rewrite Ew, zget_app_l in Hx by lia. exact Hx. }
  assert (SET : forall a x b v, l ++ sp = a ++ x :: b -> zlen a = pos it -> pos it < len s ->
    Set_ sliceOps it v h' = (Ok tt, upd h (arr s) (pre ++ (a ++ v :: b) ++ post))).
  { intros a x b v Ea La Hlt. cbn [sliceOps Set_]. rewrite Es.
    destruct (split_at b (len s - pos it - 1)) as (b1 & b2 & -> & Lb).
    { assert (zlen (l ++ sp) = zlen a + 1 + zlen b) by (rewrite Ea; zl). zsimp. zpos. lia. }
    assert (Vb : view h' s pre (a ++ x :: b1) b2 post) by (apply VW; [rewrite Ea; norm; reflexivity|zl]).
    rewrite <- La. rewrite (assign_view _ _ _ _ _ _ _ _ v Vb). unfold inplace, h', inplace. rewrite upd_upd. do 3 f_equal. norm. reflexivity. }
  split; [|split; [|split; [|split; [|split]]]].
  - intros p x q El Hpp Hlt. split.
    + apply GET; [|exact Hlt]. rewrite El. rewrite <- app_assoc. cbn [app]. rewrite Hpp. apply zget_mid.
    + intros v. eexists. split; [apply (SET p x (q ++ sp)); [rewrite El; now rewrite <- app_assoc|lia|exact Hlt]|].
      assert (EV : view (upd h (arr s) (pre ++ (p ++ v :: q ++ sp) ++ post)) s' pre (p ++ v :: q) sp post).
      { destruct V' as [_ W2 W3 W4]. split; [|exact W2|rewrite W3, El; zl|rewrite W4, El; zl].
        cbn [s' arr]. erewrite nth_error_upd_same by exact V1. f_equal. norm. reflexivity. }
      now rewrite (view_elems _ _ _ _ _ _ EV).
  - intros [HA HB]. destruct (split_elem (l ++ sp) (pos it)) as (a & x & b & Ea & La); [zsimp; zpos; lia|]. split.
    + exists x. apply GET; [|exact HB]. rewrite Ea, <- La. apply zget_mid.
    + intros v. eexists. split; [apply (SET a x b); assumption|].
      destruct (split_at a (zlen l)) as (a1 & a2 & -> & L1); [zpos; lia|].
      assert (a1 = l) as ->.
      { rewrite <- (firstn_zlen a1 (a2 ++ x :: b) (zlen l)) by lia. rewrite app_assoc, <- Ea. now apply firstn_zlen. }
      assert (Esp : sp = a2 ++ x :: b) by (rewrite <- app_assoc in Ea; now apply app_inv_head in Ea).
      assert (EV : view (upd h (arr s) (pre ++ ((l ++ a2) ++ v :: b) ++ post)) s' pre l (a2 ++ v :: b) post).
      { destruct V' as [_ W2 W3 W4]. split; [|exact W2|exact W3|rewrite W4, Esp; zl].
        cbn [s' arr]. erewrite nth_error_upd_same by exact V1. f_equal. norm. reflexivity. }
      now rewrite (view_elems _ _ _ _ _ _ EV).
  - intros p q v El Hpp. pose proof (view_valid _ _ _ _ _ _ V') as Vv. pose proof (view_elems _ _ _ _ _ _ V') as Ve.
    destruct (insert_spec zero growth h' s' p q v Vv ltac:(congruence)) as (r1 & h1 & EI & Vr & Er & _).
    exists (mkIt (pos it) r1), h1, r1. split; [|split; [exact Er|]].
    + unfold Insert_, checkIterator, xbind, xget. cbn [snd]. rewrite Es, RE. cbn [negb]. unfold xret.
      rewrite Hpp, (modify_ok _ _ _ _ _ EI). reflexivity.
    + rewrite get_spec; cbn [sl pos].
      * rewrite Er, Hpp, zget_mid. reflexivity.
      * exact Vr.
      * rewrite <- (elems_len h1 r1 Vr), Er, Hpp. zsimp. zpos. lia.
  - intros v Hlt. unfold Insert_, checkIterator, xbind, xget. cbn [snd]. rewrite Es, RE. cbn [negb]. unfold xret.
    unfold modify, xbind, xget, onVar. cbn [snd]. rewrite insert_panic; [reflexivity|cbn [s' len]; apply zlen_nonneg|cbn [s' len]; lia].
  - intros it' Hr'. destruct (reach_bounds (T := T) s' it' (zlen_nonneg l) Hr') as [Es' _].
    cbn [sliceOps Equal]. rewrite Es, Es', RE, RE'. split; reflexivity.
  - intros He. cbn [sliceOps Get Next]. rewrite Es. unfold index. replace ((0 <=? pos it) && (pos it <? len s)) with false by lia.
    replace (pos it >=? len s) with true by lia. split; reflexivity.
Qed.
Print Assumptions C102_kept_partial.

(** Once there have been more elements than the capacity was, the iterator has
    parted from the slice for good: Insert and every comparison with an iterator
    of the slice panic; Get gives what was there when they parted, whatever is
    done to the slice; what Set writes the slice does not see. *)
Theorem C102_left_partial {T} (zero : T) growth (h : heap T) (s : slice) it es :
  valid h s -> reach (T := T) s it -> outgrown (cap s) es (elems h s) = true ->
  forall rs h' s', runOps (perform zero growth) es (h, s) = (rs, (h', s')) ->
  (forall v, Insert_ zero growth it v (h', s') = (Panic "iterator does not belongs to this slice", (h', s'))) /\
  (forall it', reach (T := T) s' it' ->
     Equal sliceOps it it' h' = (Panic "compare iterator of different slices", h') /\
     Equal sliceOps it' it h' = (Panic "compare iterator of different slices", h')) /\
  (pos it < len s -> exists x, forall es2 rs2 h2 s2,
     runOps (perform zero growth) es2 (h', s') = (rs2, (h2, s2)) -> Get sliceOps it h2 = (Ok x, h2)) /\
  (pos it < len s -> forall v, exists h'', Set_ sliceOps it v h' = (Ok tt, h'') /\
     elems h'' s' = afterAll es (elems h s) /\ Get sliceOps it h'' = (Ok v, h'')).
Proof.
  intros Hv Hr HG rs h' s' E. assert (H0 : 0 <= len s) by (destruct Hv as (_ & H & _); lia).
  destruct (reach_bounds (T := T) s it H0 Hr) as [Es Hp].
  destruct (C101_history zero growth h s es Hv rs h' s' E) as (Hv' & _ & El).
  destruct (hist_moves zero growth es h s Hv HG) as (d & d' & Hd & Hd' & Ld & Hne).
  unfold endState in Hd', Hne. rewrite E in Hd', Hne. cbn [fst snd] in Hd', Hne.
  assert (RE : ReferenceEqual s' s = false) by (unfold ReferenceEqual; apply andb_false_iff; left; now apply Nat.eqb_neq).
  assert (RE' : ReferenceEqual s s' = false) by (unfold ReferenceEqual; apply andb_false_iff; left; apply Nat.eqb_neq; congruence).
  assert (VS : forall k e, nth_error k (arr s) = Some e -> zlen e = zlen d -> valid (T := T) k s).
  { intros k e Hk Lk. destruct Hv as (A1 & A2 & dd & A3 & A4). split; [exact A1|]. split; [exact A2|].
    rewrite Hd in A3. injection A3 as <-. exists e. split; [exact Hk|lia]. }
  split; [|split; [|split]].
  - intros v. unfold Insert_, checkIterator, xbind, xget. cbn [snd]. now rewrite Es, RE.
  - intros it' Hr'. assert (H1 : 0 <= len s') by (destruct Hv' as (_ & H & _); lia).
    destruct (reach_bounds (T := T) s' it' H1 Hr') as [Es' _].
    cbn [sliceOps Equal]. rewrite Es, Es', RE, RE'. split; reflexivity.
  - intros Hlt. pose proof (VS h' d' Hd' Ld) as V1.
    destruct (zget_some (elems h' s) (pos it)) as (x & Hx); [rewrite (elems_len h' s V1); lia|].
    exists x. intros es2 rs2 h2 s2 E2. destruct (hist_apart zero growth es2 h' s' (arr s) d' Hv' Hne Hd') as [_ Hd2].
    unfold endState in Hd2. rewrite E2 in Hd2. cbn [fst] in Hd2.
    rewrite get_spec; rewrite ?Es; [|exact (VS h2 d' Hd2 Ld)|exact Hp].
    replace (elems h2 s) with (elems h' s); [now rewrite Hx|]. unfold elems. now rewrite (nth_error_nth _ _ _ Hd'), (nth_error_nth _ _ _ Hd2).
  - intros Hlt v. pose proof (VS h' d' Hd' Ld) as V1. destruct (valid_view _ _ V1) as (pre & live & spare & post & V).
    pose proof V as [W1 W2 W3 W4]. destruct (split_elem live (pos it)) as (p & x & q & -> & Lp); [lia|].
    eexists. split; [cbn [sliceOps Set_]; rewrite Es, <- Lp; apply (assign_view _ _ _ _ _ _ _ _ v V)|].
    split; [rewrite <- El; unfold inplace; now rewrite elems_upd_other|].
    pose proof (view_inplace_same h' s pre (p ++ x :: q) spare post (p ++ v :: q) V ltac:(zl)) as V2.
    cbn [sliceOps Get]. rewrite Es, <- Lp. eapply index_view; [exact V2|]. apply zget_mid.
Qed.
Print Assumptions C102_left_partial.

(** So a kept iterator can act on something that is not in the slice and tell
    nobody: of 1 2 3 in full memory, an iterator at 0 kept over an Append sets 9
    and the slice does not see it; one at 2 kept over DeleteLast reads 3. *)
Definition s123 : slice := mkSlice 2 0 3 3.
Definition h123 : heap Z := emptyHeap ++ [[1; 2; 3]].
Theorem C102_stale_refuted :
  (exists h' s' h'', runOps (perform 0 (fun _ n => 2 * n)) [EAppend 4] (h123, s123) = ([Ok tt], (h', s')) /\
     Set_ sliceOps (mkIt 0 s123) 9 h' = (Ok tt, h'') /\ elems h'' s' = [1; 2; 3; 4]) /\
  (exists h' s', runOps (perform 0 (fun _ n => 2 * n)) [EDeleteLast] (h123, s123) = ([Ok tt], (h', s')) /\
     elems h' s' = [1; 2] /\ Get sliceOps (mkIt 2 s123) h' = (Ok 3, h')).
Proof. split; repeat eexists. Qed.
Print Assumptions C102_stale_refuted.

(** ** Non-vacuity *)
Example s123_valid : valid h123 s123 /\ reach (T := Z) s123 (mkIt 2 s123).
Proof.
  split.
  - split; [cbn; lia|]. split; [cbn; lia|]. exists [1; 2; 3]. split; [reflexivity|cbn; lia].
  - apply (reach_at s123 h123 h123 2). reflexivity.
Qed.
Example C101_case : exists h' s',
  runOps (perform 0 (fun _ n => 2 * n)) [EAppend 4; EDelete 9; EUnorderedDelete 0; EInsertAt 1 7; ESet 0 8; EDeleteLast; EAppendMany [5; 6]] (h123, s123)
    = ([Ok tt; Panic "delete out of bound"; Ok tt; Ok tt; Ok tt; Ok tt; Ok tt], (h', s')) /\ elems h' s' = [8; 7; 2; 5; 6].
Proof. eexists _, _. split; [vm_compute; reflexivity|vm_compute; reflexivity]. Qed.
Example C102_cases :
  outgrown (cap s123) [EDelete 0; EAppend 4; EUnorderedDelete 1] (elems h123 s123) = false /\
  outgrown (cap s123) [EDelete 0; EAppend 4; EAppend 5; EDelete 0; EDelete 0] (elems h123 s123) = true.
Proof. split; reflexivity. Qed.
