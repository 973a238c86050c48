(** What lies between the length and the capacity of a Slice variable. *)
From Verif Require Import Base Arr Exn GoSlice GoSlice_Proofs Algo_Proofs XSlice_Model XSlice_Spec XSlice_Proofs XSlice_Facts XSlice_Hist_Spec XSlice_Hist_Proofs XSlice_Spare_Spec.
Local Open Scope exn_scope.
Local Open Scope list_scope.
Local Open Scope Z_scope.

Section Spare.
  Context {T : Type} (zero : T) (growth : Z -> Z -> Z).
  Implicit Types (h : heap T) (s : slice).
  Local Notation perform := (perform zero growth).

  Lemma view_beyond h s pre live spare post : view h s pre live spare post -> beyond h s = spare.
  Proof.
    intros [V1 V2 V3 V4]. zpos. unfold beyond, elems. cbn [arr off len]. rewrite (nth_error_nth _ _ _ V1).
    rewrite app_assoc. rewrite skipn_zlen by (zsimp; lia). apply firstn_zlen. lia.
  Qed.

  Lemma delete_view h s pre p x q z front spare post : view h s pre (p ++ x :: q) spare post -> p ++ x :: q = front ++ [z] ->
    Delete s (zlen p) h
      = (Ok (mkSlice (arr s) (off s) (zlen (p ++ q)) (cap s)), inplace h s pre (p ++ q) (z :: spare) post).
  Proof.
    intros V EZ. pose proof V as [V1 V2 V3 V4]. zpos. unfold Delete. zsimp.
    rewrite guard_ok by lia.
    destruct (Z.ltb_spec (zlen p) (len s - 1)).
    - destruct q as [|z' q _] using rev_ind; [zsimp; lia|].
      assert (z' = z).
      { apply (f_equal (fun l => last l z)) in EZ. rewrite last_last in EZ.
        rewrite app_comm_cons, app_assoc, last_last in EZ. exact EZ. }
      subst z'. zsimp.
      assert (E : (d <- reslice s (zlen p) (len s) ;; c <- reslice s (zlen p + 1) (len s) ;; copy d c) h
        = (Ok tt, upd h (arr s) ((pre ++ p) ++ (q ++ [z]) ++ z :: spare ++ post))).
      { erewrite xbind_ok by (apply (reslice_ok growth); lia). erewrite xbind_ok by (apply (reslice_ok growth); lia).
        unfold copy. cbn [arr off len]. erewrite xbind_ok.
        2:{ apply rd_view with (p := pre ++ p ++ [x]) (l := q ++ [z]) (q := spare ++ post).
            - rewrite V1. f_equal. norm. reflexivity.
            - zl.
            - zl. }
        apply wr_view with (l := x :: q).
        - rewrite V1. f_equal. norm. reflexivity.
        - zl.
        - zl. }
      erewrite xbind_ok by exact E.
      replace (len s - 1) with (zlen p + (zlen q + (0 + 1))) by lia. rewrite (reslice_front growth) by lia.
      unfold inplace. norm. reflexivity.
    - assert (q = []) as -> by (apply zlen_0_nil; zsimp; lia). zsimp.
      apply app_inj_tail in EZ. destruct EZ as [_ EZ]. subst z.
      unfold xbind, xret. rewrite (reslice_front growth) by lia. rewrite app_nil_r.
      replace (len s - 1) with (zlen p + 0) by lia. f_equal. unfold inplace. symmetry. apply upd_nth_self. rewrite V1. f_equal. norm. reflexivity.
  Qed.

  Lemma leaves_step h s e pre live spare post : view h s pre live spare post ->
    exists pre' spare' post', view (fst (snd (perform e (h, s)))) (snd (snd (perform e (h, s)))) pre' (after e live) spare' post' /\
      leaves zero e live spare spare'.
  Proof.
    intros V. pose proof V as [V1 V2 V3 V4]. zpos.
    assert (Same : forall r, perform e (h, s) = (r, (h, s)) -> ledit e live = None ->
      exists pre' spare' post', view (fst (snd (perform e (h, s)))) (snd (snd (perform e (h, s)))) pre' (after e live) spare' post' /\
      leaves zero e live spare spare').
    { intros r E N. rewrite E. unfold after. rewrite N. exists pre, spare, post. split; [exact V|now constructor]. }
    assert (Happ : forall vs, perform e = modify (fun s => append zero growth s vs) -> adds e -> ledit e live = Some (live ++ vs) ->
      exists pre' spare' post', view (fst (snd (perform e (h, s)))) (snd (snd (perform e (h, s)))) pre' (after e live) spare' post' /\
      leaves zero e live spare spare').
    { intros vs Ep Ha El. assert (Ev : zlen (live ++ vs) - zlen live = zlen vs) by (zsimp; lia).
      pose proof (fun n => lv_moves zero e live (live ++ vs) spare n El Ha) as LM.
      pose proof (lv_fits zero e live (live ++ vs) spare El Ha) as LF. rewrite Ev in LM, LF.
      unfold after. rewrite El, Ep.
      destruct (Z_le_gt_dec (zlen vs) (zlen spare)) as [HL|HL].
      - destruct (split_at spare (zlen vs)) as (r & sp & -> & E); [zl|].
        erewrite modify_ok by (apply (append_room zero growth _ _ _ _ _ _ _ _ V); congruence).
        exists pre, sp, post. cbn [fst snd]. split.
        + apply view_inplace with (1 := V). zl.
        + specialize (LF HL). now rewrite skipn_zlen in LF.
      - destruct (append_grow zero growth _ _ _ _ vs _ _ V) as (c & Hc & E); [zl|].
        erewrite modify_ok by exact E. cbn [fst snd]. eexists [], _, []. split; [apply view_fresh; exact Hc|]. apply LM. lia. }
    destruct e as [v|vs|i v|i| |i|i v].
    - apply (Happ [v]); [reflexivity|exact I|reflexivity].
    - apply (Happ vs); [reflexivity|exact I|reflexivity].
    - destruct ((0 <=? i) && (i <=? zlen live)) eqn:Hi.
      + assert (Hi' : 0 <= i <= zlen live) by lia.
        destruct (split_at live i Hi') as (p & q & -> & <-).
        assert (El : ledit (EInsertAt (zlen p) v) (p ++ q) = Some (p ++ v :: q)).
        { unfold ledit. rewrite Hi. now rewrite firstn_zlen, skipn_zlen by reflexivity. }
        assert (Ev : zlen (p ++ v :: q) - zlen (p ++ q) = 1) by (zsimp; lia).
        unfold after. rewrite El. cbn [XSlice_Hist_Spec.perform]. destruct spare as [|y spare].
        * destruct (insert_grow zero growth _ _ _ _ _ v _ V) as (c & Hc & E). unfold InsertAt_.
          erewrite modify_ok by exact E. cbn [fst snd]. eexists [], _, []. split; [apply view_fresh; exact Hc|].
          apply (lv_moves zero _ _ _ _ _ El); [exact I|]. rewrite Ev. reflexivity.
        * unfold InsertAt_. erewrite modify_ok by (apply (insert_room zero growth _ _ _ _ _ _ _ _ _ V)). cbn [fst snd].
          exists pre, spare, post. split; [apply view_inplace with (1 := V); zl|].
          pose proof (lv_fits zero _ _ _ (y :: spare) El I) as LF. rewrite Ev in LF. apply LF. zl.
      + apply Same with (r := Panic "insert out of bound"%string); [|unfold ledit; now rewrite Hi].
        apply modify_panic. apply insert_panic; lia.
    - destruct ((0 <=? i) && (i <? zlen live)) eqn:Hi.
      + assert (Hi' : 0 <= i < zlen live) by lia.
        destruct (split_elem live i Hi') as (p & x & q & -> & <-).
        unfold after, ledit. rewrite Hi. destruct (cut_mid p x q) as [-> ->].
        destruct (exists_last (l := p ++ x :: q)) as (front & z & EZ); [destruct p; discriminate|].
        cbn [XSlice_Hist_Spec.perform]. unfold Delete_. erewrite modify_ok by (eapply delete_view; [exact V|exact EZ]). cbn [fst snd].
        exists pre, (z :: spare), post. split; [apply view_inplace with (1 := V); zl|].
        assert (zlen p <= zlen front). { apply (f_equal zlen) in EZ. zsimp. lia. }
        rewrite EZ. constructor. zl.
      + apply Same with (r := Panic "delete out of bound"%string); [|unfold ledit; now rewrite Hi].
        apply modify_panic. apply (delete_panic growth); lia.
    - destruct live as [|a l] eqn:El.
      + apply Same with (r := Panic "delete from empty slice"%string); [|reflexivity].
        apply modify_panic. unfold DeleteLast. rewrite V3. reflexivity.
      + destruct (exists_last (l := a :: l) ltac:(discriminate)) as (p & x & E). rewrite E in *. unfold after, ledit.
        replace (match p ++ [x] with [] => None | _ => Some (removelast (p ++ [x])) end) with (Some p) by (rewrite <- (removelast_last p x) at 1; now rewrite <- E).
        cbn [XSlice_Hist_Spec.perform]. unfold DeleteLast_. erewrite modify_ok by (eapply (deletelast_exec growth); exact V). cbn [fst snd].
        exists pre, (x :: spare), post. split; [apply view_inplace with (1 := V); zl|constructor].
    - destruct ((0 <=? i) && (i <? zlen live)) eqn:Hi.
      + assert (Hi' : 0 <= i < zlen live) by lia.
        destruct (split_elem live i Hi') as (p & x & q & -> & <-).
        unfold after, ledit. rewrite Hi. destruct (cut_mid p x q) as [-> ->]. cbn zeta.
        cbn [XSlice_Hist_Spec.perform]. unfold UnorderedDelete_. destruct (rev q) as [|z m] eqn:Eq.
        * assert (q = []) as -> by (rewrite <- (rev_involutive q), Eq; reflexivity).
          erewrite modify_ok by (eapply (unordered_last growth); exact V). cbn [fst snd].
          exists pre, (x :: spare), post. split; [apply view_inplace with (1 := V); zl|constructor].
        * assert (q = rev m ++ [z]) as -> by (rewrite <- (rev_involutive q), Eq; reflexivity).
          erewrite modify_ok by (eapply (unordered_exec growth); exact V). cbn [fst snd].
          exists pre, (x :: spare), post. split; [apply view_inplace with (1 := V); zl|constructor].
      + apply Same with (r := Panic "delete out of bound"%string); [|unfold ledit; now rewrite Hi].
        apply modify_panic. apply (unordered_panic growth); lia.
    - destruct ((0 <=? i) && (i <? zlen live)) eqn:Hi.
      + assert (Hi' : 0 <= i < zlen live) by lia.
        destruct (split_elem live i Hi') as (p & x & q & -> & <-).
        unfold after, ledit. rewrite Hi. destruct (cut_mid p x q) as [-> ->].
        cbn [XSlice_Hist_Spec.perform]. unfold xbind, xget, onVar, SetAt. cbn [snd].
        rewrite (assign_view _ _ _ _ _ _ _ _ v V). cbn [fst snd].
        exists pre, spare, post. split; [|apply lv_set]. apply (view_inplace_same _ _ _ _ _ _ (p ++ v :: q) V). zl.
      + eapply Same; [|unfold ledit; now rewrite Hi].
        cbn [XSlice_Hist_Spec.perform]. unfold xbind, xget, onVar, SetAt, assign. cbn [snd]. rewrite V3, Hi. reflexivity.
  Qed.

  Lemma leaves_hist es : forall h s pre live spare post, view h s pre live spare post ->
    exists pre' spare' post', view (fst (endState zero growth es (h, s))) (snd (endState zero growth es (h, s))) pre' (afterAll es live) spare' post' /\
      leavesAll zero es live spare spare'.
  Proof.
    induction es as [|e es IH]; intros h s pre live spare post V.
    - exists pre, spare, post. split; [exact V|constructor].
    - rewrite endState_cons. destruct (leaves_step h s e _ _ _ _ V) as (p1 & s1 & q1 & V1 & L1).
      destruct (perform e (h, s)) as [r [h1 t1]]. cbn [fst snd] in V1. cbn [snd].
      destruct (IH h1 t1 _ _ _ _ V1) as (p2 & s2 & q2 & V2 & L2). exists p2, s2, q2. split; [exact V2|]. econstructor; eauto.
  Qed.

  Lemma sub_view h s pre live spare post i j : view h s pre live spare post -> 0 <= i <= j -> j <= cap s ->
    exists q, Sub s i j h = (Ok q, h) /\ elems h q = firstn (Z.to_nat (j - i)) (skipn (Z.to_nat i) (live ++ spare)).
  Proof.
    intros [V1 V2 V3 V4] Hi Hj. zpos. unfold Sub, reslice.
    replace ((0 <=? i) && (i <=? j) && (j <=? cap s)) with true by lia.
    eexists. split; [reflexivity|]. unfold elems. cbn [arr off len]. rewrite (nth_error_nth _ _ _ V1).
    destruct (Z.eqb_spec (cap s - i) 0) as [E|E].
    - replace (j - i) with 0 by lia. reflexivity.
    - replace (Z.to_nat (off s + i)) with (List.length pre + Z.to_nat i)%nat by (unfold zlen in *; lia).
      rewrite skipn_app, skipn_all2 by lia. cbn [List.app].
      replace (List.length pre + Z.to_nat i - List.length pre)%nat with (Z.to_nat i) by lia.
      rewrite (app_assoc live spare post). rewrite skipn_app, firstn_app.
      replace (Z.to_nat (j - i) - List.length (skipn (Z.to_nat i) (live ++ spare)))%nat with 0%nat.
      + cbn [firstn]. apply app_nil_r.
      + rewrite skipn_length. rewrite app_length. unfold zlen in *. lia.
  Qed.
End Spare.

Lemma app_inj_len {A} : forall (a b c d : list A), List.length a = List.length b -> a ++ c = b ++ d -> a = b /\ c = d.
Proof.
  induction a as [|x a IH]; intros [|y b] c d HL HE; cbn in *; try discriminate; [auto|].
  injection HE as -> HE. destruct (IH b c d) as [-> ->]; auto.
Qed.

Lemma firstn_zlen {A} (a b : list A) n : n = zlen a -> firstn (Z.to_nat n) (a ++ b) = a.
Proof.
  intros ->. unfold zlen. rewrite Nat2Z.id, firstn_app, Nat.sub_diag, firstn_all. apply app_nil_r.
Qed.
