(** ToSlice of a ring that wraps, with any destination. *)
From Verif Require Import Base Arr Exn XRing_Spec XRing_Model XRing_Proofs.
From Verif Require Import GoSlice Algo_Proofs GoSlice_Proofs XSlice_Spec XSlice_Facts.
From Verif Require Import XRing_Heap_Spec XRing_Heap_Model XRing_Heap_Facts XRing_Heap_Proofs XRing_Dest_Spec.
Local Open Scope string_scope.
Local Open Scope list_scope.
Local Open Scope Z_scope.

Section Dest.
  Context {T : Type} (zero : T) (growth : Z -> Z -> Z).
  Implicit Types (h : heap T) (s : slice) (w : world T) (l : list T).
  Local Notation own w := (rbuf (rg w)).

  Lemma fill_wrapped h r l s n1 : valid h (rbuf r) -> Rep zero (abs h r 0) l -> valid h s -> GoSlice.len s = 0 ->
    GoSlice.len (rbuf r) < rst r + rlen r -> n1 = GoSlice.len (rbuf r) - rst r ->
    exists s' h', fill zero growth r s h = (Ok s', h') /\ valid h' s' /\ GoSlice.len s' = zlen l /\
      (forall i, 0 <= i < zlen l -> zget (elems h' s') i = shown (rbuf r) s n1 l i) /\
      (forall a i, cell h a i <> None -> ~ (a = GoSlice.arr s /\ off s <= i < off s + written s n1 (zlen l)) -> cell h' a i = cell h a i) /\
      (forall i, 0 <= i < written s n1 (zlen l) -> cell h' (GoSlice.arr s) (off s + i) = shown (rbuf r) s n1 l i) /\
      (if cap s <? zlen l then (List.length h <= GoSlice.arr s')%nat
       else GoSlice.arr s' = GoSlice.arr s /\ off s' = off s /\ cap s' = cap s).
  Proof.
    intros VB HR VS L0 Hw En1. pose proof (rep_parts zero _ _ HR) as HP. destruct HR as (HL & HC & HS & HST & _).
    cbn [abs buf XRing_Model.st XRing_Model.len] in *. rewrite (elems_len h _ VB) in *.
    pose proof (zlen_nonneg l) as NL. assert (VC := VB). destruct VC as (_ & VC & _).
    assert (E0 : elems h s = []) by (apply zlen_0_nil; rewrite elems_len; assumption).
    assert (VSC := VS). destruct VSC as (VS1 & VS2 & _).
    unfold fill. replace (rst r + rlen r <=? GoSlice.len (rbuf r)) with false in * by lia.
    destruct (reslice_ok h (rbuf r) (rst r) (GoSlice.len (rbuf r)) VB ltac:(lia) ltac:(lia))
        as (p & Ep & Vp & _ & Lp & _ & _ & _ & Elp).
    erewrite xbind_ok by exact Ep. erewrite xbind_ok by (apply spread_ok; exact Vp).
    pose proof (elems_len h p Vp) as ZLp.
    specialize (Elp ltac:(lia)). change (firstn _ (skipn _ ?b)) with (sub b (rst r) (GoSlice.len (rbuf r))) in Elp.
    rewrite Elp in *. set (x := sub _ _ _) in *.
    destruct (reslice_ok h (rbuf r) 0 (rst r + rlen r - GoSlice.len (rbuf r)) VB ltac:(lia) ltac:(lia))
        as (q & Eq & Vq & Aq & Lq & _ & Oq & _ & Elq).
    specialize (Oq eq_refl). pose proof (elems_len h q Vq) as ZLq.
    specialize (Elq ltac:(lia)). change (firstn _ (skipn _ ?b)) with (sub b 0 (rst r + rlen r - GoSlice.len (rbuf r))) in Elq.
    rewrite Elq in *. set (y := sub _ 0 _) in *.
    assert (Hxy : zlen x + zlen y = zlen l) by (rewrite <- HP, zlen_app; reflexivity).
    assert (Zx : zlen x = n1) by lia. assert (Zy : zlen y = zlen l - n1) by lia.
    destruct (append_ok zero growth h s x VS) as (s1 & h1 & E1 & V1 & El1 & F1 & L1 & A1).
    erewrite xbind_ok by exact E1. rewrite E0 in El1. cbn [List.app] in El1.
    assert (VB1 : valid h1 (rbuf r)) by (eapply grows_valid; [apply F1|assumption]).
    destruct (reslice_ok h1 (rbuf r) 0 (rst r + rlen r - GoSlice.len (rbuf r)) VB1 ltac:(lia) ltac:(lia))
        as (q' & Eq' & Vq' & Aq' & Lq' & _ & Oq' & _ & _).
    specialize (Oq' eq_refl).
    erewrite xbind_ok by exact Eq'. erewrite xbind_ok by (apply spread_ok; exact Vq').
    set (z := elems h1 q'). assert (Zz : zlen z = zlen y) by (unfold z; rewrite elems_len by assumption; lia).
    destruct (append_ok zero growth h1 s1 z V1) as (s' & h' & E & V' & El & F & L' & A).
    rewrite El1 in El. rewrite L0 in *. cbn [Z.add] in *.
    assert (Zl : forall i, 0 <= i < zlen l -> zget l i = if i <? n1 then zget x i else zget y (i - n1)).
    { intros i Hi. rewrite <- HP. destruct (Z.ltb_spec i n1); [apply zget_app_l; lia|rewrite zget_app_r by lia; now rewrite Zx]. }
    assert (Sx : forall i, 0 <= i < n1 -> shown (rbuf r) s n1 l i = zget x i).
    { intros i Hi. unfold shown. replace (n1 <=? i) with false by lia. cbn [andb]. rewrite Zl by lia.
      now replace (i <? n1) with true by lia. }
    assert (Sz : forall j, 0 <= j < zlen y -> shown (rbuf r) s n1 l (n1 + j) = zget z j).
    { intros j Hj. unfold z. rewrite zget_elems by (assumption || lia). rewrite Aq', Oq'. unfold shown.
      replace (n1 + j - n1) with j by lia. replace (n1 <=? n1 + j) with true by lia. cbn [andb].
      assert (NE : cell h (GoSlice.arr (rbuf r)) (off (rbuf r) + j) <> None) by (apply cell_valid; [assumption|lia]).
      destruct (Z.leb_spec n1 (cap s)) as [Hcap|Hcap]; cbn [andb].
      - destruct A1 as [(_ & A2 & A3 & A4)|(A1 & _)]; [|lia].
        destruct (Nat.eqb_spec (GoSlice.arr s) (GoSlice.arr (rbuf r))) as [EA|NA]; cbn [andb].
        + destruct ((off s <=? off (rbuf r) + j) && (off (rbuf r) + j <? off s + n1)) eqn:Ein.
          * assert (Hr : off s <= off (rbuf r) + j < off s + n1) by lia.
            replace (cell h1 (GoSlice.arr (rbuf r)) (off (rbuf r) + j)) with (cell h1 (GoSlice.arr s1) (off s1 + (off (rbuf r) + j - off s))).
            2:{ rewrite A2, A3, EA. f_equal. lia. }
            rewrite <- zget_elems by (assumption || lia). rewrite El1.
            rewrite Zl by lia. now replace (off (rbuf r) + j - off s <? n1) with true by lia.
          * rewrite (proj2 F1); [|exact NE|intros (_ & Hi & _); lia].
            rewrite Zl by lia. replace (n1 + j <? n1) with false by lia. replace (n1 + j - n1) with j by lia.
            rewrite <- Elq. rewrite zget_elems by (assumption || lia). now rewrite Aq, Oq.
        + rewrite (proj2 F1); [|exact NE|intros (Ha & _); congruence].
          rewrite Zl by lia. replace (n1 + j <? n1) with false by lia. replace (n1 + j - n1) with j by lia.
          rewrite <- Elq. rewrite zget_elems by (assumption || lia). now rewrite Aq, Oq.
      - destruct A1 as [(A1 & _)|(_ & A1)]; [lia|].
        rewrite Zl by lia. replace (n1 + j <? n1) with false by lia. replace (n1 + j - n1) with j by lia.
        rewrite <- Elq. rewrite zget_elems by (assumption || lia). rewrite Aq, Oq. symmetry.
        assert (FF : frame (fun _ _ => False) h h1).
        { unfold append in E1. rewrite L0 in E1. cbn [Z.add] in E1. replace (zlen x <=? cap s) with false in E1 by lia.
          unfold xbind, rd, alloc, xret in E1. destruct (nth_error h (GoSlice.arr s)); [|discriminate].
          destruct (_ && _) in E1; [|discriminate]. injection E1 as <- <-. apply frame_extend. }
        apply FF; [exact NE|tauto]. }
    exists s', h'. split; [exact E|]. split; [assumption|]. split; [lia|]. split; [|split; [|split]].
    - intros i Hi. rewrite El. destruct (Z.ltb_spec i n1).
      + rewrite zget_app_l by lia. symmetry. apply Sx. lia.
      + rewrite zget_app_r by lia. rewrite Zx, <- Sz by lia. f_equal. lia.
    - intros a i NE NP. assert (NE1 : cell h1 a i <> None) by (eapply grows_cell; [apply F1|exact NE]).
      unfold written in NP. destruct (Z.ltb_spec (cap s) n1).
      + assert (FF : frame (fun _ _ => False) h h1).
        { unfold append in E1. rewrite L0 in E1. cbn [Z.add] in E1. replace (zlen x <=? cap s) with false in E1 by lia.
          unfold xbind, rd, alloc, xret in E1. destruct (nth_error h (GoSlice.arr s)); [|discriminate].
          destruct (_ && _) in E1; [|discriminate]. injection E1 as <- <-. apply frame_extend. }
        destruct A1 as [(A1 & _)|(_ & A1)]; [lia|].
        rewrite (proj2 F); [apply FF; [exact NE|tauto]|exact NE1|]. intros (Ha & _). apply cell_arr in NE. lia.
      + destruct A1 as [(_ & A2 & A3 & A4)|(A1 & _)]; [|lia].
        assert (C1 : ~ (a = GoSlice.arr s /\ off s <= i < off s + n1) -> cell h1 a i = cell h a i).
        { intros N. apply F1; [exact NE|]. intros (Ha & Hi & _). apply N. lia. }
        destruct (Z.ltb_spec (cap s) (zlen l)).
        * rewrite <- C1 by (intros N; apply NP; lia).
          assert (FF : frame (fun _ _ => False) h1 h').
          { unfold append in E. replace (GoSlice.len s1 + zlen z <=? cap s1) with false in E by lia.
            unfold xbind, rd, alloc, xret in E. destruct (nth_error h1 (GoSlice.arr s1)); [|discriminate].
            destruct (_ && _) in E; [|discriminate]. injection E as <- <-. apply frame_extend. }
          apply FF; [exact NE1|tauto].
        * rewrite (proj2 F); [apply C1; intros N; apply NP; lia|exact NE1|].
          rewrite A2, A3. intros (Ha & Hi & _). apply NP. split; [assumption|lia].
    - intros i. unfold written. destruct (Z.ltb_spec (cap s) n1); [lia|].
      destruct A1 as [(_ & A2 & A3 & A4)|(A1 & _)]; [|lia].
      destruct (Z.ltb_spec (cap s) (zlen l)); intros Hi.
      + rewrite Sx by lia. rewrite <- El1, zget_elems by (assumption || lia). rewrite A2, A3.
        assert (FF : frame (fun _ _ => False) h1 h').
        { unfold append in E. replace (GoSlice.len s1 + zlen z <=? cap s1) with false in E by lia.
          unfold xbind, rd, alloc, xret in E. destruct (nth_error h1 (GoSlice.arr s1)); [|discriminate].
          destruct (_ && _) in E; [|discriminate]. injection E as <- <-. apply frame_extend. }
        apply FF; [|tauto]. rewrite <- A2, <- A3. apply cell_valid; [assumption|]. lia.
      + destruct A as [(_ & B2 & B3 & B4)|(A & _)]; [|lia].
        replace (cell h' (GoSlice.arr s) (off s + i)) with (cell h' (GoSlice.arr s') (off s' + i)) by (rewrite B2, B3, A2, A3; reflexivity).
        rewrite <- zget_elems by (assumption || lia). rewrite El. destruct (Z.ltb_spec i n1).
        * rewrite zget_app_l by lia. symmetry. apply Sx. lia.
        * rewrite zget_app_r by lia. rewrite Zx, <- Sz by lia. f_equal. lia.
    - destruct (Z.ltb_spec (cap s) (zlen l)).
      + destruct A1 as [(A1 & A2 & A3 & A4)|(A1 & A2)].
        * destruct A as [(A & _)|(_ & A)]; [lia|]. rewrite A. apply grows_length. apply F1.
        * destruct A as [(_ & A & _)|(_ & A)]; rewrite A; [lia|]. apply grows_length. apply F1.
      + destruct A1 as [(A1 & A2 & A3 & A4)|(A1 & A2)]; [|lia].
        destruct A as [(_ & B2 & B3 & B4)|(A & _)]; [|lia]. rewrite B2, B3, B4. auto.
  Qed.

  Lemma toSlice_wrapped w l s x w' n1 : good zero w l -> valid (hp w) s -> isNil s = false ->
    GoSlice.len (own w) < rst (rg w) + rlen (rg w) -> n1 = GoSlice.len (own w) - rst (rg w) ->
    ringEvent zero growth (EToSlice s) w = (x, w') ->
    exists s', x = Ok (ASlice s') /\ rg w' = rg w /\ valid (hp w') s' /\ GoSlice.len s' = zlen l /\
      (forall i, 0 <= i < zlen l -> zget (elems (hp w') s') i = shown (own w) s n1 l i) /\
      (forall a i, cell (hp w) a i <> None -> ~ (a = GoSlice.arr s /\ off s <= i < off s + written s n1 (zlen l)) ->
         cell (hp w') a i = cell (hp w) a i) /\
      (forall i, 0 <= i < written s n1 (zlen l) -> cell (hp w') (GoSlice.arr s) (off s + i) = shown (own w) s n1 l i) /\
      (if cap s <? zlen l then (List.length (hp w) <= GoSlice.arr s')%nat
       else GoSlice.arr s' = GoSlice.arr s /\ off s' = off s /\ cap s' = cap s).
  Proof.
    intros Hg VS En Hw En1 E. assert (Hg0 := Hg). destruct Hg0 as (G & VB & HR).
    pose proof (good_len zero w _ Hg) as HL0.
    destruct (reslice_ok (hp w) s 0 0 VS ltac:(lia)) as (s0 & E0 & V0 & A0 & L0 & C0 & O0 & I0 & _).
    { destruct VS as (_ & ? & _). lia. }
    specialize (O0 eq_refl). rewrite Z.sub_0_r in C0.
    destruct (fill_wrapped (hp w) (rg w) l s0 n1 VB HR V0 L0 Hw En1) as (s' & h' & E' & R1 & R2 & R3 & R4 & R5 & R6).
    assert (ET : RToSlice zero growth (rg w) s (hp w) = (Ok s', h')).
    { unfold RToSlice. replace (rlen (rg w) =? 0) with false.
      - rewrite En. erewrite xbind_ok by exact E0. exact E'.
      - destruct HR as (_ & HC & HS & HST & _). cbn [abs buf XRing_Model.st XRing_Model.len] in *.
        rewrite (elems_len _ _ VB) in *. pose proof (zlen_nonneg l). lia. }
    unfold ringEvent in E. erewrite xbind_ok in E by reflexivity.
    erewrite xbind_ok in E by (unfold mem; rewrite ET; reflexivity). injection E as <- <-.
    exists s'. cbn [rg hp]. split; [reflexivity|]. split; [reflexivity|]. split; [assumption|]. split; [assumption|].
    unfold shown, written in *. rewrite A0, O0, C0 in *. repeat (split; [assumption|]). assumption.
  Qed.
End Dest.
