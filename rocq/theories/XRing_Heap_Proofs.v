(** The ring in memory behaves like the ring with a buffer of its own. *)
From Verif Require Import Base Arr Exn XRing_Spec XRing_Model XRing_Proofs.
From Verif Require Import GoSlice Algo_Proofs GoSlice_Proofs XSlice_Spec XSlice_Facts.
From Verif Require Import XRing_Heap_Spec XRing_Heap_Model XRing_Heap_Facts.
Local Open Scope string_scope.
Local Open Scope list_scope.
Local Open Scope Z_scope.

Section HeapRing.
  Context {T : Type} (zero : T) (growth : Z -> Z -> Z).
  Implicit Types (h : heap T) (s : slice) (w : world T) (l : list T).

  (** The ring of XRing_Model that a ring in memory looks like. *)
  Definition abs h (r : ringVar) (m : Z) : ring T := mkRing (elems h (rbuf r)) (rst r) (rlen r) m.
  Local Notation own w := (rbuf (rg w)).
  Definition good w l : Prop :=
    goHeap (hp w) /\ valid (hp w) (own w) /\ Rep zero (abs (hp w) (rg w) 0) l.

  Lemma rep_parts (r : ring T) l : Rep zero r l ->
    (if XRing_Model.st r + XRing_Model.len r <=? zlen (buf r)
     then sub (buf r) (XRing_Model.st r) (XRing_Model.st r + XRing_Model.len r)
     else sub (buf r) (XRing_Model.st r) (zlen (buf r)) ++
          sub (buf r) 0 (XRing_Model.st r + XRing_Model.len r - zlen (buf r))) = l.
  Proof.
    intros HR. pose proof (toSliceInto_res zero r l (mkTarget [] false []) HR) as E.
    unfold toSliceInto in E. destruct (_ <=? _); rewrite !goAppend_res in E; exact E.
  Qed.

  (** ** ToSlice *)
  Definition fill (r : ringVar) s : X (heap T) slice :=
    (if rst r + rlen r <=? GoSlice.len (rbuf r) then
      p <- reslice (rbuf r) (rst r) (rst r + rlen r) ;;
      vs <- spread p ;;
      GoSlice.append zero growth s vs
    else
      p <- reslice (rbuf r) (rst r) (GoSlice.len (rbuf r)) ;;
      vs <- spread p ;;
      s <- GoSlice.append zero growth s vs ;;
      p <- reslice (rbuf r) 0 (rst r + rlen r - GoSlice.len (rbuf r)) ;;
      vs <- spread p ;;
      GoSlice.append zero growth s vs)%exn.

  Lemma fill_ok h r l s : valid h (rbuf r) -> Rep zero (abs h r 0) l -> valid h s -> GoSlice.len s = 0 ->
    (forall a i, inCap s a i -> ~ inLen (rbuf r) a i) ->
    exists s' h', fill r s h = (Ok s', h') /\ valid h' s' /\ elems h' s' = l /\
      frame (fun a i => a = GoSlice.arr s /\ off s <= i < off s + zlen l /\ i < off s + cap s) h h' /\
      ((zlen l <= cap s /\ GoSlice.arr s' = GoSlice.arr s /\ off s' = off s /\ cap s' = cap s) \/
       (cap s < zlen l /\ (List.length h <= GoSlice.arr s')%nat)).
  Proof.
    intros VB HR VS L0 D. pose proof (rep_parts _ _ HR) as HP. destruct HR as (HL & HC & HS & HST & _).
    cbn [abs buf XRing_Model.st XRing_Model.len] in *. rewrite (elems_len h _ VB) in *.
    pose proof (zlen_nonneg l) as NL. assert (VC := VB). destruct VC as (_ & VC & _).
    assert (E0 : elems h s = []) by (apply zlen_0_nil; rewrite elems_len; assumption).
    unfold fill. destruct (Z.leb_spec (rst r + rlen r) (GoSlice.len (rbuf r))) as [Hle|Hgt].
    - destruct (reslice_ok h (rbuf r) (rst r) (rst r + rlen r) VB ltac:(lia) ltac:(lia))
        as (p & Ep & Vp & _ & _ & _ & _ & _ & Elp).
      erewrite xbind_ok by exact Ep. erewrite xbind_ok by (apply spread_ok; exact Vp).
      rewrite Elp by lia. fold (@sub T). change (firstn _ (skipn _ ?b)) with (sub b (rst r) (rst r + rlen r)).
      rewrite HP. destruct (append_ok zero growth h s l VS) as (s' & h' & E & V' & El & F & _ & A).
      exists s', h'. split; [exact E|]. split; [assumption|]. split; [rewrite El, E0; reflexivity|]. split.
      + eapply frame_weaken; [exact F|]. cbn beta. intros a i. lia.
      + rewrite L0 in A. destruct A as [(A & B)|(A & B)]; [left|right]; (split; [lia|]); [assumption|lia].
    - destruct (reslice_ok h (rbuf r) (rst r) (GoSlice.len (rbuf r)) VB ltac:(lia) ltac:(lia))
        as (p & Ep & Vp & _ & _ & _ & _ & _ & Elp).
      erewrite xbind_ok by exact Ep. erewrite xbind_ok by (apply spread_ok; exact Vp).
      rewrite Elp by lia. change (firstn _ (skipn _ ?b)) with (sub b (rst r) (GoSlice.len (rbuf r))).
      set (x := sub _ _ _) in *. set (y := sub _ 0 _) in *.
      destruct (append_ok zero growth h s x VS) as (s1 & h1 & E1 & V1 & El1 & F1 & L1 & A1).
      erewrite xbind_ok by exact E1.
      assert (VB1 : valid h1 (rbuf r)) by (eapply grows_valid; [apply F1|assumption]).
      assert (ELB : elems h1 (rbuf r) = elems h (rbuf r)).
      { eapply frame_elems; [exact F1|assumption|]. intros a i Hin (Ha & Hi & Hc). apply (D a i); [|assumption].
        split; [assumption|lia]. }
      destruct (reslice_ok h1 (rbuf r) 0 (rst r + rlen r - GoSlice.len (rbuf r)) VB1 ltac:(lia) ltac:(lia))
        as (q & Eq & Vq & _ & _ & _ & _ & _ & Elq).
      erewrite xbind_ok by exact Eq. erewrite xbind_ok by (apply spread_ok; exact Vq).
      rewrite Elq by lia. rewrite ELB.
      change (firstn _ (skipn _ ?b)) with (sub b 0 (rst r + rlen r - GoSlice.len (rbuf r))). fold y.
      destruct (append_ok zero growth h1 s1 y V1) as (s' & h' & E & V' & El & F & _ & A).
      exists s', h'. split; [exact E|]. split; [assumption|]. split; [rewrite El, El1, E0; exact HP|].
      assert (Hxy : zlen x + zlen y = zlen l) by (rewrite <- HP, zlen_app; reflexivity).
      pose proof (zlen_nonneg x). pose proof (zlen_nonneg y).
      rewrite L0 in *. split.
      + eapply frame_trans; [exact F1|exact F|]. cbn beta. intros a i Hc [H1|(H1 & H2 & H3)]; [lia|].
        destruct A1 as [(A1 & A2 & A3 & A4)|(A1 & A2)].
        * rewrite A2, A3, A4 in *. lia.
        * exfalso. apply cell_arr in Hc. lia.
      + destruct A1 as [(A1 & A2 & A3 & A4)|(A1 & A2)].
        * rewrite A2, A3, A4, L1 in A. destruct A as [(A & B)|(A & B)]; [left; split; [lia|assumption]|right].
          split; [lia|]. rewrite B. apply grows_length. apply F1.
        * right. split; [lia|]. destruct A as [(A & B & _)|(A & B)]; rewrite B; [lia|]. apply grows_length. apply F1.
  Qed.

  Lemma goHeap_nil_cap h s : goHeap h -> valid h s -> isNil s = true -> cap s <= 0.
  Proof.
    intros [G _] (V1 & V2 & d & Hd & V3) N. unfold isNil in N. apply Nat.eqb_eq in N. rewrite N, G in Hd.
    injection Hd as <-. change (zlen (@nil T)) with 0 in V3. lia.
  Qed.

  Lemma toSlice_ok w l s : good w l -> l <> [] -> valid (hp w) s ->
    (forall a i, inCap s a i -> ~ inLen (own w) a i) ->
    exists s' h', RToSlice zero growth (rg w) s (hp w) = (Ok s', h') /\ valid h' s' /\ elems h' s' = l /\
      frame (fun a i => a = GoSlice.arr s /\ off s <= i < off s + zlen l /\ i < off s + cap s) (hp w) h' /\
      ((isNil s = false /\ zlen l <= cap s /\ GoSlice.arr s' = GoSlice.arr s /\ off s' = off s /\ cap s' = cap s) \/
       ((isNil s = true \/ cap s < zlen l) /\ (List.length (hp w) <= GoSlice.arr s')%nat)).
  Proof.
    intros (G & VB & HR) Hne VS D. unfold RToSlice. fold (fill (rg w)).
    assert (HL := HR). destruct HL as (HL & _). cbn [abs XRing_Model.len] in HL.
    assert (0 < zlen l). { destruct l; [congruence|]. rewrite zlen_cons. pose proof (zlen_nonneg l). lia. }
    replace (rlen (rg w) =? 0) with false by lia.
    destruct (isNil s) eqn:En.
    - unfold makeLenCap. replace (0 <? 0) with false by lia. replace (rlen (rg w) <? 0) with false by lia.
      assert (Em : (s <- makeSlice zero (rlen (rg w)) ;; reslice s 0 0)%exn (hp w)
        = (Ok (mkSlice (List.length (hp w)) 0 0 (rlen (rg w))), hp w ++ [repeat zero (Z.to_nat (rlen (rg w)))])).
      { erewrite xbind_ok by (apply (make_ok zero (hp w) (rlen (rg w))); lia). unfold reslice. cbn [cap GoSlice.arr off].
        replace ((0 <=? 0) && (0 <=? 0) && (0 <=? rlen (rg w))) with true by lia. rewrite Z.sub_0_r.
        replace (if rlen (rg w) =? 0 then 0 else 0 + 0) with 0 by (destruct (_ =? _); reflexivity). reflexivity. }
      erewrite xbind_ok by exact Em.
      set (n := rlen (rg w)) in *. set (h1 := hp w ++ [repeat zero (Z.to_nat n)]).
      destruct (make_valid zero (hp w) n ltac:(lia)) as [V1 _]. fold h1 in V1.
      assert (F1 : frame (fun _ _ => False) (hp w) h1) by apply frame_extend.
      assert (VB1 : valid h1 (own w)) by (eapply grows_valid; [apply F1|assumption]).
      assert (EB : elems h1 (own w) = elems (hp w) (own w)) by (eapply frame_elems; [exact F1|assumption|tauto]).
      destruct (fill_ok h1 (rg w) l (mkSlice (List.length (hp w)) 0 0 n)) as (s' & h' & E & V' & El & F & A).
      + exact VB1.
      + unfold abs in *. rewrite EB. exact HR.
      + destruct V1 as (Va & Vb & d & Vd & Ve). cbn in *. split; [cbn; lia|]. split; [cbn; lia|]. exists d. cbn. auto.
      + reflexivity.
      + intros a i [Ha _] [Hb _]. cbn in Ha. apply valid_arr in VB. lia.
      + exists s', h'. split; [exact E|]. split; [assumption|]. split; [assumption|]. split.
        * eapply frame_trans; [exact F1|exact F|]. cbn. intros a i Hc [[]|(Ha & _)]. apply cell_arr in Hc. lia.
        * right. cbn [GoSlice.arr] in A. split; [now left|]. destruct A as [(_ & -> & _)|(_ & A)]; [lia|].
          destruct F1 as [F1 _]. apply grows_length in F1. lia.
    - destruct (reslice_ok (hp w) s 0 0 VS ltac:(lia)) as (s0 & E0 & V0 & A0 & L0 & C0 & O0 & I0 & _).
      { destruct VS as (_ & ? & _). lia. }
      specialize (O0 eq_refl). rewrite Z.sub_0_r in C0.
      erewrite xbind_ok by exact E0.
      destruct (fill_ok (hp w) (rg w) l s0) as (s' & h' & E & V' & El & F & A); try assumption.
      { intros a i Hi. apply D. now apply I0. }
      exists s', h'. split; [exact E|]. split; [assumption|]. split; [assumption|].
      rewrite A0, O0, C0 in *. split; [assumption|]. destruct A as [A|[A B]]; [left|right]; auto.
  Qed.

  (** ** Reallocation *)
  Lemma realloc_ok w l n : good w l -> 0 < n -> rlen (rg w) <= n ->
    exists w', realloc zero growth n w = (Ok tt, w') /\
      abs (hp w') (rg w') 0 = mkRing (refill zero (abs (hp w) (rg w) 0) n) 0 (rlen (rg w)) 0 /\
      good w' l /\ frame (fun _ _ => False) (hp w) (hp w') /\
      (List.length (hp w) <= GoSlice.arr (own w'))%nat /\ GoSlice.len (own w') = n.
  Proof.
    intros (G & VB & HR) Hn Hl. assert (HL := HR). destruct HL as (HL & _). cbn [abs XRing_Model.len] in HL.
    pose proof (rep_refill zero _ _ n 0 HR Hn Hl) as (HR' & _).
    rewrite (refill_eq zero _ _ n HR Hl) in *.
    set (h1 := hp w ++ [repeat zero (Z.to_nat n)]). set (nb := mkSlice (List.length (hp w)) 0 n n).
    destruct (make_valid zero (hp w) n Hn) as [V1 EN]. fold h1 nb in V1, EN.
    assert (F1 : frame (fun _ _ => False) (hp w) h1) by apply frame_extend.
    assert (Hgl : (List.length (hp w) < List.length h1)%nat) by (unfold h1; rewrite app_length; cbn; lia).
    assert (G1 : goHeap h1) by (eapply grows_goHeap; [apply F1|assumption]).
    assert (VB1 : valid h1 (own w)) by (eapply grows_valid; [apply F1|assumption]).
    assert (EB : elems h1 (own w) = elems (hp w) (own w)) by (eapply frame_elems; [exact F1|assumption|tauto]).
    unfold realloc. erewrite xbind_ok. 2:{ unfold mem. rewrite make_ok by lia. reflexivity. }
    fold h1 nb. cbn [rg hp]. erewrite xbind_ok by reflexivity. cbn [rg hp].
    assert (Main : exists s' h', RToSlice zero growth (rg w) nb h1 = (Ok s', h') /\
       frame (fun a _ => a = List.length (hp w)) h1 h' /\
       elems h' nb = l ++ repeat zero (Z.to_nat (n - zlen l))).
    { assert (l = [] \/ l <> []) as [->|Hne] by (destruct l; [now left|right; discriminate]).
      - exists nilSlice, h1. unfold RToSlice. change (zlen (@nil T)) with 0 in *. replace (rlen (rg w) =? 0) with true by lia.
        split; [reflexivity|]. split; [apply frame_refl|]. rewrite EN. cbn [app]. do 2 f_equal. lia.
      - destruct (toSlice_ok (mkWorld h1 (rg w)) l nb) as (s' & h' & E & V' & El & F & A).
        + split; [assumption|]. split; [assumption|]. cbn [hp rg]. unfold abs in *. now rewrite EB.
        + assumption.
        + assumption.
        + intros a i [Ha _] [Hb _]. cbn in Ha. apply valid_arr in VB. cbn in Hb. lia.
        + cbn [hp rg] in *. exists s', h'. split; [assumption|]. split.
          { eapply frame_weaken; [exact F|]. intros a i (Ha & _). exact Ha. }
          destruct A as [(_ & A & Aa & Ao & Ac)|[[A|A] _]].
          2:{ exfalso. cbn in A. apply Nat.eqb_eq in A. destruct G as [G _].
              destruct (hp w); [discriminate|]. cbn in A. lia. }
          2:{ exfalso. cbn in A. lia. }
          assert (VN : valid h' nb) by (eapply grows_valid; [apply F|assumption]).
          apply zget_ext.
          { rewrite zlen_app, zlen_repeat, elems_len by assumption. cbn. lia. }
          intros i Hi. rewrite elems_len in Hi by assumption. change (GoSlice.len nb) with n in Hi.
          destruct (Z_lt_le_dec i (zlen l)) as [Hlt|Hge].
          * rewrite zget_app_l by assumption. rewrite <- El. rewrite !zget_elems; try assumption.
            { now rewrite Aa, Ao. } { rewrite <- El, elems_len in Hlt by assumption. lia. }
          * rewrite zget_app_r by assumption. rewrite zget_elems by assumption.
            destruct F as [_ F]. rewrite F.
            { rewrite <- zget_elems by assumption. rewrite EN.
              rewrite !(zget_at zero) by (rewrite zlen_repeat; lia). now rewrite !at_repeat. }
            { apply cell_valid; [assumption|]. cbn. lia. }
            { cbn. lia. } }
    destruct Main as (s' & h' & E & F & El).
    erewrite xbind_ok. 2:{ unfold mem. cbn [hp]. rewrite E. reflexivity. }
    unfold setRing. cbn [hp rg].
    eexists. split; [reflexivity|]. cbn [hp rg rbuf].
    assert (EA : abs h' (mkRingVar nb 0 (rlen (rg w))) 0 = mkRing (l ++ repeat zero (Z.to_nat (n - zlen l))) 0 (rlen (rg w)) 0)
      by (unfold abs; cbn [rbuf rst rlen]; now rewrite El).
    split; [exact EA|]. split.
    { split; [eapply grows_goHeap; [apply F|assumption]|]. split; [eapply grows_valid; [apply F|exact V1]|].
      cbn [hp rg]. rewrite EA. exact HR'. }
    split.
    { eapply frame_trans; [exact F1|exact F|]. intros a i Hc [[]|Ha]. apply cell_arr in Hc. lia. }
    cbn. split; [lia|reflexivity].
  Qed.

  (** The buffer stays and its start index becomes [z], or the ring moved to a
      new buffer of another size. *)
  Definition kept w w' (z : Z) : Prop :=
    (own w' = own w /\ rst (rg w') = z) \/
    ((List.length (hp w) <= GoSlice.arr (own w'))%nat /\ GoSlice.len (own w') <> GoSlice.len (own w)).

  Lemma kept_own w w' z : kept w w' z -> own w' = own w \/ (List.length (hp w) <= GoSlice.arr (own w'))%nat.
  Proof. intros [[H _]|[H _]]; auto. Qed.

  (** The start index after an event that does not move the ring. *)
  Definition startAfter (e : event T) l (r : ringVar) : Z :=
    match e, l with
    | EPrepend _, _ => if rst r - 1 <? 0 then rst r - 1 + GoSlice.len (rbuf r) else rst r - 1
    | (EPop | EDeleteFirst), _ :: _ => if rst r + 1 =? GoSlice.len (rbuf r) then 0 else rst r + 1
    | _, _ => rst r
    end.

  Lemma growth_ok w l : good w l -> exists w1 m, rcheckGrowth zero growth w = (Ok tt, w1) /\
    abs (hp w1) (rg w1) m = checkGrowth zero (abs (hp w) (rg w) 0) /\ good w1 l /\
    frame (fun _ _ => False) (hp w) (hp w1) /\ (w1 = w \/ kept w w1 (-1)).
  Proof.
    intros Hg. assert (Hg' := Hg). destruct Hg' as (G & VB & HR). unfold rcheckGrowth. erewrite xbind_ok by reflexivity.
    cbv zeta. unfold checkGrowth. cbv zeta. cbn [abs buf XRing_Model.len]. rewrite (elems_len _ _ VB).
 destruct (Z.eqb_spec (rlen (rg w)) (GoSlice.len (own w))) as [E|E].
    - assert (0 <= GoSlice.len (own w)) as N by apply VB. pose proof (grown_gt _ N) as Hgt. unfold grownCap in *.
      set (n := if GoSlice.len (own w) =? 0 then 4 else _) in *.
      destruct (realloc_ok w l n Hg ltac:(lia) ltac:(lia)) as (w1 & E1 & EA & Hg1 & F & K & KL).
      exists w1, (XRing_Model.moved (abs (hp w) (rg w) 0) + rlen (rg w)). split; [exact E1|].
      split. { unfold abs in *. injection EA as -> -> ->. reflexivity. }
      split; [assumption|]. split; [assumption|]. right. right. split; [assumption|lia].
    - exists w, 0. split; [reflexivity|]. split; [reflexivity|]. split; [assumption|].
      split; [apply frame_refl|now left].
  Qed.

  Lemma shrink_ok w l : good w l -> exists w1 m, rcheckShrink zero growth w = (Ok tt, w1) /\
    abs (hp w1) (rg w1) m = checkShrink zero (abs (hp w) (rg w) 0) /\ good w1 l /\
    frame (fun _ _ => False) (hp w) (hp w1) /\ (w1 = w \/ kept w w1 (-1)).
  Proof.
    intros Hg. assert (Hg' := Hg). destruct Hg' as (G & VB & HR). unfold rcheckShrink. erewrite xbind_ok by reflexivity.
    cbv zeta. unfold checkShrink. cbv zeta. cbn [abs buf XRing_Model.len]. rewrite (elems_len _ _ VB).
 destruct (_ && _) eqn:E.
    - set (n := GoSlice.len (own w) / 8) in *.
      assert (0 < n /\ rlen (rg w) <= n) as [N1 N2] by (unfold n in *; lia).
      destruct (realloc_ok w l n Hg N1 N2) as (w1 & E1 & EA & Hg1 & F & K & KL).
      exists w1, (XRing_Model.moved (abs (hp w) (rg w) 0) + rlen (rg w)). split; [exact E1|].
      split. { unfold abs in *. injection EA as -> -> ->. reflexivity. }
      split; [assumption|]. split; [assumption|]. right. right. split; [assumption|lia].
    - exists w, 0. split; [reflexivity|]. split; [reflexivity|]. split; [assumption|].
      split; [apply frame_refl|now left].
  Qed.

  (** Storing in the buffer, then changing the other fields. *)
  Lemma put_ok w w1 l1 i v b (s n m : Z) l' : good w1 l1 -> frame (fun _ _ => False) (hp w) (hp w1) -> (w1 = w \/ kept w w1 (-1)) ->
    zset (elems (hp w1) (own w1)) i v = Some b -> Rep zero (mkRing b s n m) l' ->
    exists w', (mem (assign (own w1) i v) ;; setRing (mkRingVar (own w1) s n))%exn w1 = (Ok tt, w') /\
      good w' l' /\ frame (inLen (own w')) (hp w) (hp w') /\ own w' = own w1 /\ rst (rg w') = s /\
      (own w1 = own w \/ (List.length (hp w) <= GoSlice.arr (own w1))%nat).
  Proof.
    intros (G & VB & _) F K0 Hs HR.
    assert (K : own w1 = own w \/ (List.length (hp w) <= GoSlice.arr (own w1))%nat)
      by (destruct K0 as [->|K0]; [now left|eapply kept_own; exact K0]). unfold zset in Hs. rewrite (elems_len _ _ VB) in Hs.
    destruct (_ && _) eqn:Hi in Hs; [|discriminate]. injection Hs as <-.
    destruct (assign_ok (hp w1) (own w1) i v VB ltac:(lia)) as (h' & E & F' & El).
    eexists. split.
    { erewrite xbind_ok. 2:{ unfold mem. rewrite E. reflexivity. } reflexivity. }
    assert (F2 : frame (inLen (own w1)) (hp w) h').
    { eapply frame_trans; [exact F|exact F'|]. cbn beta. intros a j Hc [[]|(Ha & Hj)]. split; [assumption|lia]. }
    split.
    - split; [eapply grows_goHeap; [apply F'|assumption]|]. split; [eapply grows_valid; [apply F'|assumption]|].
      cbn [hp rg]. unfold abs. cbn [rbuf rst rlen]. rewrite El. exact HR.
    - split; [exact F2|]. split; [reflexivity|]. split; [reflexivity|exact K].
  Qed.

  Ltac pure H := cbv beta iota zeta delta [XRing_Model.Append XRing_Model.Prepend XRing_Model.DeleteLast
    XRing_Model.DeleteFirst xbind xget xput setBuf setStLen xret xpanic] in H.

  Lemma rappend_ok w l v : good w l -> exists w', RAppend zero growth v w = (Ok tt, w') /\
    good w' (l ++ [v]) /\ frame (inLen (own w')) (hp w) (hp w') /\ kept w w' (startAfter (EAppend v) l (rg w)).
  Proof.
    intros Hg. destruct (growth_ok w l Hg) as (w1 & m & E1 & EA & Hg1 & F & K).
    destruct Hg as (G & VB & HR). destruct (XRing_Proofs.append_ok zero _ _ v HR) as (r' & Hr & HR').
    pure Hr. rewrite <- EA in Hr. assert (VB1 := Hg1). destruct VB1 as (_ & VB1 & _).
    cbn [abs buf XRing_Model.st XRing_Model.len] in Hr. rewrite (elems_len _ _ VB1) in Hr.
    unfold RAppend. erewrite xbind_ok by exact E1. erewrite xbind_ok by reflexivity. cbv zeta.
    destruct (zset (elems (hp w1) (rbuf (rg w1))) _ v) as [b|] eqn:Hz; [|discriminate]. injection Hr as <-.
    destruct (put_ok w w1 _ _ _ _ _ _ _ _ Hg1 F K Hz HR') as (w' & E & P1 & P2 & P3 & P4 & P5).
    exists w'. split; [exact E|]. split; [assumption|]. split; [assumption|].
    destruct K as [->|[[_ K]|K]]; [left; split; assumption| |right; rewrite P3; exact K].
    exfalso. destruct Hg1 as (_ & _ & _ & _ & Hs & _). cbn in Hs. lia.
  Qed.

  Lemma rprepend_ok w l v : good w l -> exists w', RPrepend zero growth v w = (Ok tt, w') /\
    good w' (v :: l) /\ frame (inLen (own w')) (hp w) (hp w') /\ kept w w' (startAfter (EPrepend v) l (rg w)).
  Proof.
    intros Hg. destruct (growth_ok w l Hg) as (w1 & m & E1 & EA & Hg1 & F & K).
    destruct Hg as (G & VB & HR). destruct (prepend_ok zero _ _ v HR) as (r' & Hr & HR').
    pure Hr. rewrite <- EA in Hr. assert (VB1 := Hg1). destruct VB1 as (_ & VB1 & _).
    cbn [abs buf XRing_Model.st XRing_Model.len] in Hr. rewrite (elems_len _ _ VB1) in Hr.
    unfold RPrepend. erewrite xbind_ok by exact E1. erewrite xbind_ok by reflexivity. cbv zeta.
    destruct (zset (elems (hp w1) (rbuf (rg w1))) _ v) as [b|] eqn:Hz; [|discriminate]. injection Hr as <-.
    destruct (put_ok w w1 _ _ _ _ _ _ _ _ Hg1 F K Hz HR') as (w' & E & P1 & P2 & P3 & P4 & P5).
    exists w'. split; [exact E|]. split; [assumption|]. split; [assumption|].
    destruct K as [->|[[_ K]|K]]; [left; split; assumption| |right; rewrite P3; exact K].
    exfalso. destruct Hg1 as (_ & _ & _ & _ & Hs & _). cbn in Hs. lia.
  Qed.

  Lemma good_len w l : good w l -> (rlen (rg w) =? 0) = match l with [] => true | _ => false end.
  Proof. intros (_ & _ & HR). exact (rep_nil_iff zero _ _ HR). Qed.

  Lemma rdeleteLast_ok w l : good w l -> l <> [] -> exists w', RDeleteLast zero growth w = (Ok tt, w') /\
    good w' (removelast l) /\ frame (inLen (own w')) (hp w) (hp w') /\ kept w w' (startAfter EDeleteLast l (rg w)).
  Proof.
    intros Hg Hne. destruct (shrink_ok w l Hg) as (w1 & m & E1 & EA & Hg1 & F & K). pose proof (good_len w l Hg) as HL.
    destruct Hg as (G & VB & HR). destruct (delete_last_ok zero _ _ HR Hne) as (r' & Hr & HR').
    pure Hr. rewrite <- EA in Hr. assert (VB1 := Hg1). destruct VB1 as (_ & VB1 & _).
    cbn [abs buf XRing_Model.st XRing_Model.len] in Hr. rewrite (elems_len _ _ VB1) in Hr.
    unfold RDeleteLast. erewrite xbind_ok by reflexivity. destruct l as [|x l0]; [congruence|]. rewrite HL in *.
    erewrite xbind_ok by exact E1. erewrite xbind_ok by reflexivity. cbv zeta.
    destruct (zset (elems (hp w1) (rbuf (rg w1))) _ zero) as [b|] eqn:Hz; [|discriminate]. injection Hr as <-.
    destruct (put_ok w w1 _ _ _ _ _ _ _ _ Hg1 F K Hz HR') as (w' & E & P1 & P2 & P3 & P4 & P5).
    exists w'. split; [exact E|]. split; [assumption|]. split; [assumption|].
    destruct K as [->|[[_ K]|K]]; [left; split; assumption| |right; rewrite P3; exact K].
    exfalso. destruct Hg1 as (_ & _ & _ & _ & Hs & _). cbn in Hs. lia.
  Qed.

  Lemma rdeleteFirst_ok w x l : good w (x :: l) -> exists w', RDeleteFirst zero growth w = (Ok tt, w') /\
    good w' l /\ frame (inLen (own w')) (hp w) (hp w') /\ kept w w' (startAfter EDeleteFirst (x :: l) (rg w)).
  Proof.
    intros Hg. destruct (shrink_ok w _ Hg) as (w1 & m & E1 & EA & Hg1 & F & K). pose proof (good_len w _ Hg) as HL.
    destruct Hg as (G & VB & HR). destruct (delete_first_ok zero _ _ _ HR) as (r' & Hr & HR').
    pure Hr. rewrite <- EA in Hr. assert (VB1 := Hg1). destruct VB1 as (_ & VB1 & _).
    cbn [abs buf XRing_Model.st XRing_Model.len] in Hr. rewrite (elems_len _ _ VB1) in Hr.
    unfold RDeleteFirst. erewrite xbind_ok by reflexivity. rewrite HL in *.
    erewrite xbind_ok by exact E1. erewrite xbind_ok by reflexivity. cbv zeta.
    destruct (zset (elems (hp w1) (rbuf (rg w1))) _ zero) as [b|] eqn:Hz; [|discriminate]. injection Hr as <-.
    destruct (put_ok w w1 _ _ _ _ _ _ _ _ Hg1 F K Hz HR') as (w' & E & P1 & P2 & P3 & P4 & P5).
    exists w'. split; [exact E|]. split; [assumption|]. split; [assumption|].
    destruct K as [->|[[_ K]|K]]; [left; split; assumption| |right; rewrite P3; exact K].
    exfalso. destruct Hg1 as (_ & _ & _ & _ & Hs & _). cbn in Hs. lia.
  Qed.

  (** ** Reads *)
  Definition wrap (r : ringVar) (i : Z) : Z :=
    if i + rst r >=? GoSlice.len (rbuf r) then i + rst r - GoSlice.len (rbuf r) else i + rst r.

  Lemma good_cell w l i : good w l -> 0 <= i < zlen l ->
    0 <= wrap (rg w) i < GoSlice.len (own w) /\
    cell (hp w) (GoSlice.arr (own w)) (off (own w) + wrap (rg w) i) = zget l i /\
    zget (elems (hp w) (own w)) (wrap (rg w) i) = zget l i.
  Proof.
    intros (G & VB & HR) Hi. pose proof (getBuf_slot zero _ _ i HR) as Hb.
    assert (HR0 := HR). destruct HR0 as (HL & HC & HS & HST & _).
    pose proof (wrapAdd_range (abs (hp w) (rg w) 0) i) as Hw.
    unfold wrapAdd, getBuf, xbind, xget, xret, xpanic in *.
    cbn [abs buf XRing_Model.st XRing_Model.len] in *.
    rewrite (elems_len _ _ VB) in *. unfold wrap.
    rewrite (Z.add_comm (rst (rg w)) i) in *. destruct Hw as [Hw _]; [lia|lia|]. split; [assumption|].
    specialize (Hb ltac:(lia)). rewrite <- zget_elems by assumption.
    destruct (zget (elems (hp w) (own w)) _) as [x|] eqn:E; [|discriminate]. injection Hb as ->.
    rewrite (zget_at zero) by lia. auto.
  Qed.

  Lemma atRef_ok w l i : good w l -> RAtRef (rg w) i (hp w) =
    (if (0 <=? i) && (i <? zlen l) then Ok (GoSlice.arr (own w), off (own w) + wrap (rg w) i)
     else Panic "index out of bound", hp w).
  Proof.
    intros Hg. assert (HL : zlen l = rlen (rg w)) by apply Hg. unfold RAtRef.
    destruct ((i <? 0) || (rlen (rg w) <=? i)) eqn:E.
    - replace ((0 <=? i) && (i <? zlen l)) with false by lia. reflexivity.
    - replace ((0 <=? i) && (i <? zlen l)) with true by lia. cbv zeta. fold (wrap (rg w) i).
      destruct (good_cell w l i Hg ltac:(lia)) as (Hw & _).
      replace ((0 <=? wrap (rg w) i) && (wrap (rg w) i <? GoSlice.len (rbuf (rg w)))) with true by lia. reflexivity.
  Qed.

  Lemma at_ok w l i : good w l -> RAt (rg w) i (hp w) =
    (match zget l i with Some v => Ok v | None => Panic "index out of bound" end, hp w).
  Proof.
    intros Hg. unfold RAt, xbind. rewrite (atRef_ok w l i Hg). destruct (_ && _) eqn:E.
    - destruct (good_cell w l i Hg ltac:(lia)) as (_ & Hc & _). destruct (zget_some l i ltac:(lia)) as [x Hx].
      rewrite Hx in *. unfold cell in Hc. unfold ld. destruct (nth_error (hp w) _); [|discriminate]. now rewrite Hc.
    - assert (zget l i = None) as -> by (apply zget_none; lia). reflexivity.
  Qed.

  Lemma set_ok w l i v : good w l -> 0 <= i < zlen l -> exists h', RSet (rg w) i v (hp w) = (Ok tt, h') /\
    good (mkWorld h' (rg w)) (upd l (Z.to_nat i) v) /\ frame (inLen (own w)) (hp w) h'.
  Proof.
    intros Hg Hi. destruct (good_cell w l i Hg Hi) as (Hw & _ & _). unfold RSet, xbind. rewrite (atRef_ok w l i Hg).
    replace ((0 <=? i) && (i <? zlen l)) with true by lia.
    assert (Hg0 := Hg). destruct Hg0 as (G & VB & HR).
    destruct (assign_ok (hp w) (own w) (wrap (rg w) i) v VB Hw) as (h' & E & F & El).
    unfold assign in E. replace ((0 <=? wrap (rg w) i) && (wrap (rg w) i <? GoSlice.len (own w))) with true in E by lia.
    exists h'. split; [exact E|]. split.
    - split; [eapply grows_goHeap; [apply F|assumption]|]. split; [eapply grows_valid; [apply F|assumption]|].
      cbn [hp rg]. destruct (rep_set zero _ _ i v HR Hi) as (r' & Hr & HR').
      unfold wrapAdd, setBuf, xbind, xget, xput, xret, xpanic in Hr. cbn [abs buf XRing_Model.st XRing_Model.len] in Hr.
      rewrite (elems_len _ _ VB) in Hr.
      rewrite (Z.add_comm (rst (rg w)) i) in Hr. change (if _ >=? _ then _ else _) with (wrap (rg w) i) in Hr.
      rewrite zset_ok in Hr by (rewrite elems_len; assumption). injection Hr as <-.
      unfold abs. rewrite El. exact HR'.
    - eapply frame_weaken; [exact F|]. cbn beta. intros a j (-> & ->). split; [reflexivity|lia].
  Qed.

  Lemma first_ok' w l : good w l -> RFirst (rg w) (hp w) =
    (match l with x :: _ => Ok x | [] => Panic "get from empty queue" end, hp w).
  Proof.
    intros Hg. unfold RFirst. rewrite (good_len w l Hg). destruct l as [|x l]; [reflexivity|].
    destruct Hg as (G & VB & HR). rewrite (index_ok _ _ _ VB).
    pose proof (first_ok zero _ _ _ HR) as H. unfold First, getBuf, xbind, xget, xret, xpanic in H.
    cbn [abs buf XRing_Model.st XRing_Model.len] in H. 
    destruct (_ =? 0); [discriminate|]. destruct (zget _ _); [|discriminate]. now injection H as ->.
  Qed.

  Lemma last_ok' w l : good w l -> RLast (rg w) (hp w) =
    (match nth_error (rev l) 0 with Some x => Ok x | None => Panic "get from empty queue" end, hp w).
  Proof.
    intros Hg. unfold RLast. rewrite (good_len w l Hg). destruct l as [|y l0]; [reflexivity|].
    destruct (removelast_snoc (y :: l0) ltac:(discriminate)) as (l' & x & Hl & _). rewrite Hl in *.
    rewrite rev_app_distr. cbn [app rev nth_error].
    destruct Hg as (G & VB & HR). rewrite (index_ok _ _ _ VB). cbv zeta.
    pose proof (last_ok zero _ _ _ HR) as H. unfold Last, getBuf, xbind, xget, xret, xpanic in H.
    cbn [abs buf XRing_Model.st XRing_Model.len] in H. rewrite (elems_len _ _ VB) in H.
    destruct (_ =? 0); [discriminate|]. cbv zeta in H. destruct (zget _ _); [|discriminate]. now injection H as ->.
  Qed.

  (** ** Every event *)
  Lemma event_ok w l e : good w l -> allowed (hp w) (own w) e ->
    exists x w', ringEvent zero growth e w = (x, w') /\ answered e l (hp w') x /\ good w' (listAfter e l) /\
      frame (fun a i => inLen (own w') a i \/ writes e a i) (hp w) (hp w') /\ kept w w' (startAfter e l (rg w)).
  Proof.
    intros Hg Ha. unfold ringEvent. erewrite xbind_ok by reflexivity.
    assert (FR : frame (fun a i => inLen (own w) a i \/ writes e a i) (hp w) (hp w)) by apply frame_refl.
    assert (KR : kept w w (rst (rg w))) by now left.
    assert (FW : forall w', frame (inLen (own w')) (hp w) (hp w') ->
       frame (fun a i => inLen (own w') a i \/ writes e a i) (hp w) (hp w'))
      by (intros w' F; eapply frame_weaken; [exact F|auto]).
    assert (MW : forall A (m : X (heap T) A) (x : outcome A), m (hp w) = (x, hp w) -> mem m w = (x, w)).
    { intros A m x H. unfold mem. rewrite H. now destruct w. }
    destruct e; cbn [answered listAfter dequeOp dequeStep fst snd] in *; unfold answered, listAfter; cbn [dequeOp].
    - destruct (rappend_ok w l v Hg) as (w' & E & H1 & H2 & H3). erewrite xbind_ok by exact E.
      eexists _, w'. split; [reflexivity|]. split; [exact I|]. auto.
    - destruct (rappend_ok w l v Hg) as (w' & E & H1 & H2 & H3). unfold RPush. erewrite xbind_ok by exact E.
      eexists _, w'. split; [reflexivity|]. split; [exact I|]. auto.
    - destruct (rprepend_ok w l v Hg) as (w' & E & H1 & H2 & H3). erewrite xbind_ok by exact E.
      eexists _, w'. split; [reflexivity|]. split; [exact I|]. auto.
    - pose proof (good_len w l Hg) as HL. pose proof (first_ok' w l Hg) as HF. destruct l as [|x l].
      + eexists _, w. split.
        { unfold RPop, xbind, theRing, xbind, xget, xret, REmpty. rewrite HL. reflexivity. }
        split; [reflexivity|]. auto.
      + destruct (rdeleteFirst_ok w x l Hg) as (w' & E & H1 & H2 & H3).
        assert (EP : RPop zero growth w = (Ok x, w')).
        { unfold RPop. erewrite xbind_ok by reflexivity. unfold REmpty. rewrite HL.
          erewrite xbind_ok by (apply MW; exact HF). erewrite xbind_ok by exact E. reflexivity. }
        erewrite xbind_ok by exact EP. eexists _, w'. split; [reflexivity|]. split; [reflexivity|]. auto.
    - pose proof (good_len w l Hg) as HL. destruct l as [|x l].
      + eexists _, w. split.
        { unfold RDeleteFirst, xbind, theRing, xbind, xget, xret. rewrite HL. reflexivity. }
        split; [reflexivity|]. auto.
      + destruct (rdeleteFirst_ok w x l Hg) as (w' & E & H1 & H2 & H3). erewrite xbind_ok by exact E.
        eexists _, w'. split; [reflexivity|]. split; [exact I|]. auto.
    - pose proof (good_len w l Hg) as HL. destruct l as [|x l].
      + eexists _, w. split.
        { unfold RDeleteLast, xbind, theRing, xbind, xget, xret. rewrite HL. reflexivity. }
        split; [reflexivity|]. auto.
      + destruct (rdeleteLast_ok w (x :: l) Hg ltac:(discriminate)) as (w' & E & H1 & H2 & H3). erewrite xbind_ok by exact E.
        eexists _, w'. split; [reflexivity|]. split; [exact I|]. auto.
    - unfold xbind. rewrite (MW _ _ _ (first_ok' w l Hg)). destruct l as [|x l].
      + eexists _, w. split; [reflexivity|]. split; [reflexivity|]. auto.
      + eexists _, w. split; [reflexivity|]. split; [reflexivity|]. auto.
    - unfold xbind. rewrite (MW _ _ _ (last_ok' w l Hg)). cbn [dequeStep fst snd orPanic].
      destruct (nth_error (rev l) 0); (eexists _, w; split; [reflexivity|]; split; [reflexivity|]; auto).
    - unfold xbind. rewrite (MW _ _ _ (at_ok w l i Hg)). cbn [dequeStep fst snd orPanic].
      destruct (zget l i); (eexists _, w; split; [reflexivity|]; split; [reflexivity|]; auto).
    - cbn [dequeStep]. destruct (zset l i v) as [l'|] eqn:E.
      + unfold zset in E. destruct (_ && _) eqn:Hi in E; [|discriminate]. injection E as <-.
        destruct (set_ok w l i v Hg ltac:(lia)) as (h' & E & H1 & H2).
        erewrite xbind_ok. 2:{ unfold mem. rewrite E. reflexivity. }
        eexists _, _. split; [reflexivity|]. split; [exact I|]. split; [exact H1|].
        split; [apply (FW (mkWorld h' (rg w))); exact H2|left; split; reflexivity].
      + apply zset_none in E. eexists _, w. split.
        { unfold xbind. rewrite (MW unit (RSet (rg w) i v) (Panic "index out of bound")); [reflexivity|].
          unfold RSet, xbind. rewrite (atRef_ok w l i Hg). replace ((0 <=? i) && (i <? zlen l)) with false by lia. reflexivity. }
        split; [reflexivity|]. auto.
    - unfold xbind. rewrite (MW _ _ _ (atRef_ok w l i Hg)). cbn [dequeStep fst snd orPanic].
      destruct ((0 <=? i) && (i <? zlen l)) eqn:E.
      + destruct (good_cell w l i Hg ltac:(lia)) as (_ & Hc & _). destruct (zget_some l i ltac:(lia)) as [x Hx].
        rewrite Hx in *. eexists _, w. split; [reflexivity|]. split; [exact Hc|]. auto.
      + assert (zget l i = None) as -> by (apply zget_none; lia). eexists _, w. split; [reflexivity|]. split; [reflexivity|]. auto.
    - eexists _, w. split; [reflexivity|]. split; [|auto]. cbn. symmetry. apply Hg.
    - eexists _, w. split; [reflexivity|]. split; [|auto]. cbn. unfold REmpty. now rewrite (good_len w l Hg).
    - destruct Ha as [VS D]. destruct l as [|x l].
      + eexists _, w. split.
        { unfold xbind. rewrite (MW slice (RToSlice zero growth (rg w) s) (Ok nilSlice)); [reflexivity|].
          unfold RToSlice. now rewrite (good_len w _ Hg). }
        split; [reflexivity|]. auto.
      + destruct (toSlice_ok w (x :: l) s Hg ltac:(discriminate) VS D) as (s' & h' & E & V' & El & F & A).
        erewrite xbind_ok. 2:{ unfold mem. rewrite E. reflexivity. }
        assert (G' : good (mkWorld h' (rg w)) (x :: l)).
        { destruct Hg as (G & VB & HR). split; [eapply grows_goHeap; [apply F|assumption]|].
          split; [eapply grows_valid; [apply F|assumption]|]. cbn [hp rg]. unfold abs.
          rewrite (frame_elems _ _ _ _ F VB); [exact HR|]. intros a i Hin (Ha & Hi & Hc). apply (D a i); [|assumption].
          split; [assumption|lia]. }
        eexists _, _. split; [reflexivity|]. split.
        { cbn. split; [assumption|]. split; [|assumption]. intros ->. apply (f_equal zlen) in El. rewrite zlen_cons in El.
          pose proof (zlen_nonneg l). cbn in El. unfold elems in El. cbn in El. change (zlen (@nil T)) with 0 in El. lia. }
        split; [exact G'|]. split; [|now left].
        eapply frame_weaken; [exact F|]. intros a i (Ha & Hi & Hc). right. cbn. split; [assumption|lia].
    - cbn in Ha. destruct (cell (hp w) a i) as [x|] eqn:E.
      + destruct (st_ok (hp w) a i v) as (h' & E' & F & _); [congruence|].
        erewrite xbind_ok. 2:{ unfold mem. rewrite E'. reflexivity. }
        eexists _, _. split; [reflexivity|]. split; [exact I|]. split.
        { destruct Hg as (G & VB & HR). split; [eapply grows_goHeap; [apply F|assumption]|].
          split; [eapply grows_valid; [apply F|assumption]|]. cbn [hp rg]. unfold abs.
          rewrite (frame_elems _ _ _ _ F VB); [exact HR|]. intros b j Hin (-> & ->). auto. }
        split; [|now left]. eapply frame_weaken; [exact F|]. cbn. auto.
      + eexists _, w. split.
        { unfold xbind. rewrite (MW unit (GoSlice.st a i v) (Panic badPtr)); [reflexivity|]. unfold cell in E. unfold st.
          destruct (nth_error (hp w) a) as [d|]; [|reflexivity].
          assert (zset d i v = None) as -> by (apply zset_none; now apply zget_none). reflexivity. }
        split; [exact I|]. auto.
    - eexists _, _. split; [reflexivity|]. split; [exact I|].
      assert (F : frame (fun _ _ => False) (hp w) (hp w ++ [l0])) by apply frame_extend. split.
      { destruct Hg as (G & VB & HR). split; [eapply grows_goHeap; [apply F|assumption]|].
        split; [eapply grows_valid; [apply F|assumption]|]. cbn [hp rg]. unfold abs.
        rewrite (frame_elems _ _ _ _ F VB); [exact HR|tauto]. }
      split; [|now left]. eapply frame_weaken; [exact F|]. tauto.
  Qed.

  (** ** Constructors *)
  Lemma good_ofslice h s : goHeap h -> valid h s -> good (mkWorld h (ROfSlice s)) (elems h s).
  Proof.
    intros G V. split; [exact G|]. split; [exact V|]. unfold abs, ROfSlice. cbn [hp rg rbuf rst rlen].
    rewrite <- (elems_len h s V). apply rep_of_slice.
  Qed.

  Lemma valid_nil h : goHeap h -> valid h nilSlice.
  Proof. intros [G _]. split; [cbn; lia|]. split; [cbn; lia|]. exists []. cbn. split; [exact G|reflexivity]. Qed.
  Lemma valid_empty h : goHeap h -> valid h (mkSlice 1 0 0 0).
  Proof. intros [_ G]. split; [cbn; lia|]. split; [cbn; lia|]. exists []. cbn. split; [exact G|reflexivity]. Qed.

  Lemma copy_ok h s : goHeap h -> valid h s ->
    exists r h', RCopy zero growth s h = (Ok r, h') /\ good (mkWorld h' r) (elems h s) /\
      frame (fun _ _ => False) h h' /\ (GoSlice.len (rbuf r) = 0 \/ (List.length h <= GoSlice.arr (rbuf r))%nat).
  Proof.
    intros G V. unfold RCopy. pose proof (elems_len h s V) as L. destruct (Z.eqb_spec (GoSlice.len s) 0) as [E|E].
    - exists RNew, h. split; [reflexivity|]. rewrite (zlen_0_nil (elems h s)) by lia.
      split; [exact (good_ofslice h nilSlice G (valid_nil h G))|]. split; [apply frame_refl|now left].
    - erewrite xbind_ok by (apply spread_ok; exact V).
      destruct (append_ok zero growth h nilSlice (elems h s) (valid_nil h G)) as (s' & h' & E' & V' & El & F & _ & A).
      erewrite xbind_ok by exact E'. eexists _, _. split; [reflexivity|].
      assert (G' : goHeap h') by (eapply grows_goHeap; [apply F|assumption]).
      split. { pose proof (good_ofslice h' s' G' V') as Hg. rewrite El in Hg. exact Hg. }
      split. { eapply frame_weaken; [exact F|]. cbn. lia. }
      right. cbn [rbuf ROfSlice]. destruct A as [(A & _)|(_ & ->)]; [|lia].
      pose proof (zlen_nonneg (elems h s)). cbn in A. lia.
  Qed.

  Lemma make0_ok h n : goHeap h -> 0 <= n -> exists s h', makeSlice zero n h = (Ok s, h') /\
    valid h' s /\ elems h' s = repeat zero (Z.to_nat n) /\ frame (fun _ _ => False) h h' /\
    GoSlice.len s = n /\ cap s = n /\ (n = 0 \/ (List.length h <= GoSlice.arr s)%nat).
  Proof.
    intros G Hn. destruct (Z.eq_dec n 0) as [->|N].
    - exists (mkSlice 1 0 0 0), h. split; [reflexivity|]. split; [now apply valid_empty|]. split; [reflexivity|].
      split; [apply frame_refl|]. cbn. auto.
    - rewrite make_ok by lia. eexists _, _. split; [reflexivity|]. destruct (make_valid zero h n ltac:(lia)) as [V E].
      split; [exact V|]. split; [exact E|]. split; [apply frame_extend|]. cbn. auto.
  Qed.

  (** The ring's memory is the slice given to Of or OfSlice, or new. *)
  Lemma made_ok h w l : goHeap h -> made zero growth h w l -> good w l /\ frame (fun _ _ => False) h (hp w) /\
    (GoSlice.len (own w) = 0 \/ (List.length h <= GoSlice.arr (own w))%nat \/ hp w = h).
  Proof.
    intros G [|n r h' H|n c r h' H|s V|s V|s r h' V H].
    - split; [exact (good_ofslice h nilSlice G (valid_nil h G))|]. split; [apply frame_refl|now left].
    - unfold RNewLen in H. destruct (Z_lt_le_dec n 0) as [N|N].
      { unfold xbind, makeSlice in H. replace (n <? 0) with true in H by lia. discriminate. }
      destruct (make0_ok h n G N) as (s & h1 & E & V & El & F & L & _ & A).
      erewrite xbind_ok in H by exact E. injection H as <- <-.
      split; [|split; [exact F|]].
      + rewrite <- El, <- L. apply (good_ofslice h1 s); [eapply grows_goHeap; [apply F|assumption]|exact V].
      + cbn. destruct A; auto. left. lia.
    - unfold RNewLenCap, makeLenCap in H. destruct (Z_lt_le_dec n 0) as [N|N].
      { unfold xbind in H. replace (n <? 0) with true in H by lia. discriminate. }
      replace (n <? 0) with false in H by lia. destruct (Z_lt_le_dec c n) as [M|M].
      { unfold xbind in H. replace (c <? n) with true in H by lia. discriminate. }
      replace (c <? n) with false in H by lia.
      destruct (make0_ok h c G ltac:(lia)) as (s & h1 & E & V & El & F & L & C & A).
      destruct (reslice_ok h1 s 0 n V ltac:(lia) ltac:(lia)) as (s' & E' & V' & Ha & L' & C' & _ & _ & El').
      assert (E2 : (s <- makeSlice zero c;; reslice s 0 n)%exn h = (Ok s', h1)).
      { erewrite xbind_ok by exact E. exact E'. }
      erewrite xbind_ok in H by exact E2. injection H as <- <-.
      split; [|split; [exact F|]].
      + replace (repeat zero (Z.to_nat n)) with (elems h1 s').
        { replace n with (GoSlice.len s') by lia.
          apply (good_ofslice h1 s'); [eapply grows_goHeap; [apply F|assumption]|exact V']. }
        rewrite El' by lia. rewrite El. cbn [Z.to_nat skipn]. rewrite Z.sub_0_r.
        replace (Z.to_nat c) with (Z.to_nat n + Z.to_nat (c - n))%nat by lia. rewrite repeat_app.
        rewrite firstn_app, repeat_length, Nat.sub_diag. cbn [firstn]. rewrite app_nil_r.
        rewrite firstn_all2; [reflexivity|]. rewrite repeat_length. lia.
      + cbn [rg rbuf]. rewrite Ha. destruct A; [left; lia|auto].
    - split; [now apply good_ofslice|]. split; [apply frame_refl|auto].
    - split; [now apply good_ofslice|]. split; [apply frame_refl|auto].
    - destruct (copy_ok h s G V) as (r' & h1 & E & Hg & F & A). rewrite E in H. injection H as <- <-.
      split; [assumption|]. split; [assumption|]. cbn. destruct A; auto.
  Qed.

  (** ** Histories *)
  Lemma event_ok' w l e x w' : good w l -> allowed (hp w) (own w) e -> ringEvent zero growth e w = (x, w') ->
    answered e l (hp w') x /\ good w' (listAfter e l) /\
      frame (fun a i => inLen (own w) a i \/ writes e a i) (hp w) (hp w') /\ kept w w' (startAfter e l (rg w)).
  Proof.
    intros Hg Ha E. destruct (event_ok w l e Hg Ha) as (x' & w1 & E' & H1 & H2 & H3 & H4). rewrite E in E'.
    injection E' as <- <-. split; [assumption|]. split; [assumption|]. split; [|assumption].
    destruct H3 as [Gr F]. split; [assumption|]. intros a i Hc Hn. apply F; [assumption|]. intros [[Hi1 Hi2]|Hw]; [|tauto].
    apply kept_own in H4. destruct H4 as [H4|H4]; [|apply cell_arr in Hc; lia]. apply Hn. left. rewrite <- H4. now split.
  Qed.

  Lemma event_frame w l e x w' : good w l -> allowed (hp w) (own w) e -> ringEvent zero growth e w = (x, w') ->
    frame (fun a i => inLen (own w') a i \/ writes e a i) (hp w) (hp w').
  Proof.
    intros Hg Ha E. destruct (event_ok w l e Hg Ha) as (x' & w1 & E' & _ & _ & H & _). rewrite E in E'.
    injection E' as <- <-. exact H.
  Qed.

  Lemma history_ok w l es w' l' : history zero growth w l es w' l' -> good w l -> good w' l' /\
    frame (fun a i => inLen (own w) a i \/ exists e, In e es /\ writes e a i) (hp w) (hp w') /\
    (own w' = own w \/ (List.length (hp w) <= GoSlice.arr (own w'))%nat).
  Proof.
    intros H. induction H as [w l|w l e x w1 es w2 l2 Ha E H IH]; intros Hg.
    - split; [assumption|]. split; [apply frame_refl|now left].
    - destruct (event_ok' w l e x w1 Hg Ha E) as (_ & Hg1 & F & K). destruct (IH Hg1) as (Hg2 & F2 & K2).
      apply kept_own in K. assert (grows (hp w) (hp w1)) as Gr by apply F. apply grows_length in Gr.
      split; [assumption|]. split.
      + eapply frame_trans; [exact F|exact F2|]. cbn beta. intros a i Hc [[Hi|Hi]|[Hi|(e' & Hin & Hw)]].
        * now left.
        * right. exists e. split; [now left|assumption].
        * destruct K as [K|K]; [left; now rewrite <- K|]. exfalso. destruct Hi as [-> _]. apply cell_arr in Hc. lia.
        * right. exists e'. split; [now right|assumption].
      + destruct K2 as [K2|K2]; [|right; lia]. rewrite K2. assumption.
  Qed.

  (** The elements keep their addresses while the buffer stays. *)
  Lemma wrap_after w l e w' i i' : good w l -> good w' (listAfter e l) -> own w' = own w ->
    rst (rg w') = startAfter e l (rg w) -> 0 <= i < zlen l -> positionAfter e l i = Some i' ->
    wrap (rg w') i' = wrap (rg w) i /\ 0 <= i' < zlen (listAfter e l).
  Proof.
    intros Hg Hg' Ho Hst Hi Hp. assert (HR := Hg). destruct HR as (_ & VB & HL & HC & HS & HST & _).
    assert (HR' := Hg'). destruct HR' as (_ & VB' & HL' & HC' & HS' & HST' & _).
    cbn [abs buf XRing_Model.st XRing_Model.len] in *. rewrite (elems_len _ _ VB) in *. rewrite (elems_len _ _ VB') in *.
    unfold wrap. rewrite Ho in *. rewrite Hst.
    assert (LA : zlen (listAfter e l) = match e with
              | EAppend _ | EPush _ | EPrepend _ => zlen l + 1
              | EPop | EDeleteFirst | EDeleteLast => zlen l - 1
              | _ => zlen l end).
    { destruct l as [|x0 l0]; [change (zlen (@nil T)) with 0 in Hi; lia|].
      unfold listAfter. destruct e; cbn [dequeOp dequeStep snd]; rewrite ?zlen_app, ?zlen_cons, ?zlen_nil; try lia.
      - destruct (removelast_snoc (x0 :: l0) ltac:(discriminate)) as (l' & x & Hl & ->).
        apply (f_equal zlen) in Hl. rewrite zlen_app, !zlen_cons, zlen_nil in Hl. lia.
      - unfold zset. destruct (_ && _); cbn [snd]; rewrite ?zlen_upd, zlen_cons; reflexivity. }
    rewrite LA. destruct l as [|x0 l0]; [change (zlen (@nil T)) with 0 in Hi; lia|].
    unfold startAfter, positionAfter in *.
    destruct e; try (injection Hp as <-; split; [reflexivity|lia]).
    - injection Hp as <-. split; [|lia]. clear HST'. 
      destruct (Z.ltb_spec (rst (rg w) - 1) 0);
        repeat match goal with |- context [?a >=? ?b] => rewrite (Z.geb_leb a b); destruct (Z.leb_spec b a) end; lia.
    - destruct (Z.eqb_spec i 0); [discriminate|]. injection Hp as <-. split; [|lia]. clear HST'.
      destruct (Z.eqb_spec (rst (rg w) + 1) (GoSlice.len (own w)));
        repeat match goal with |- context [?a >=? ?b] => rewrite (Z.geb_leb a b); destruct (Z.leb_spec b a) end; lia.
    - destruct (Z.eqb_spec i 0); [discriminate|]. injection Hp as <-. split; [|lia]. clear HST'.
      destruct (Z.eqb_spec (rst (rg w) + 1) (GoSlice.len (own w)));
        repeat match goal with |- context [?a >=? ?b] => rewrite (Z.geb_leb a b); destruct (Z.leb_spec b a) end; lia.
    - destruct (Z.eqb_spec i (zlen (x0 :: l0) - 1)); [discriminate|]. injection Hp as <-. split; [reflexivity|lia].
  Qed.

  (** What ToSlice returns lies outside the ring. *)
  Lemma toSlice_apart w l s s' w' : good w l -> allowed (hp w) (own w) (EToSlice s) ->
    ringEvent zero growth (EToSlice s) w = (Ok (ASlice s'), w') ->
    valid (hp w') s' /\ rg w' = rg w /\ forall a i, inCap s' a i -> ~ inLen (own w') a i.
  Proof.
    intros Hg Ha E. assert (Hg0 := Hg). destruct Hg0 as (G & VB & _). destruct Ha as [VS D]. unfold ringEvent in E.
    erewrite xbind_ok in E by reflexivity. destruct l as [|x l].
    - unfold xbind, mem, RToSlice in E. rewrite (good_len w _ Hg) in E. cbn in E. injection E as <- <-.
      cbn. split; [now apply valid_nil|]. split; [reflexivity|]. intros a i [_ H]. cbn in H. lia.
    - destruct (toSlice_ok w (x :: l) s Hg ltac:(discriminate) VS D) as (s1 & h' & E1 & V' & El & F & A).
      erewrite xbind_ok in E by (unfold mem; rewrite E1; reflexivity). cbn in E. injection E as <- <-.
      cbn [hp rg]. split; [assumption|]. split; [reflexivity|]. intros a i [Hi1 Hi2] [Hj1 Hj2].
      destruct A as [(_ & _ & A1 & A2 & A3)|(_ & A)].
      + apply (D a i); [|now split]. split; congruence || lia.
      + apply valid_arr in VB. lia.
  Qed.

  Lemma toSlice_frame w l s x w' : good w l -> valid (hp w) s -> (forall a i, inCap s a i -> ~ inLen (own w) a i) ->
    ringEvent zero growth (EToSlice s) w = (x, w') -> rg w' = rg w /\ frame (inCap s) (hp w) (hp w').
  Proof.
    intros Hg VS D E. unfold ringEvent in E. erewrite xbind_ok in E by reflexivity. destruct l as [|y l].
    - unfold xbind, mem, RToSlice in E. rewrite (good_len w _ Hg) in E. cbn in E. injection E as <- <-.
      cbn. split; [reflexivity|apply frame_refl].
    - destruct (toSlice_ok w (y :: l) s Hg ltac:(discriminate) VS D) as (s1 & h' & E1 & V' & El & F & A).
      erewrite xbind_ok in E by (unfold mem; rewrite E1; reflexivity). cbn in E. injection E as <- <-.
      cbn [hp rg]. split; [reflexivity|]. eapply frame_weaken; [exact F|]. intros a i (-> & H1 & H2). split; [reflexivity|lia].
  Qed.

  (** Any destination will do for the result when the elements do not wrap. *)
  Lemma toSlice_contiguous w l s x w' : good w l -> rst (rg w) + rlen (rg w) <= GoSlice.len (own w) ->
    valid (hp w) s -> ringEvent zero growth (EToSlice s) w = (x, w') -> answered (EToSlice s) l (hp w') x.
  Proof.
    intros Hg Hc VS E. assert (Hg0 := Hg). destruct Hg0 as (G & VB & HR).
    destruct (isNil s) eqn:En.
    { assert (Ha : allowed (hp w) (own w) (EToSlice s)).
      { split; [assumption|]. pose proof (goHeap_nil_cap _ _ G VS En). intros a i [_ H1]. lia. }
      now destruct (event_ok' w l _ x w' Hg Ha E). }
    destruct l as [|y l].
    { unfold ringEvent, xbind, theRing, xbind, xget, xret, mem, RToSlice in E. rewrite (good_len w _ Hg) in E. cbn in E.
      injection E as <- <-. reflexivity. }
    pose proof (good_len w _ Hg) as HL0. pose proof (rep_parts _ _ HR) as HP. destruct HR as (HL & HC & HS & HST & _).
    cbn [abs buf XRing_Model.st XRing_Model.len] in *. rewrite (elems_len _ _ VB) in *.
    replace (rst (rg w) + rlen (rg w) <=? GoSlice.len (own w)) with true in HP by lia.
    destruct (reslice_ok (hp w) s 0 0 VS ltac:(lia)) as (s0 & E0 & V0 & A0 & L0 & C0 & O0 & I0 & _).
    { destruct VS as (_ & ? & _). lia. }
    destruct (reslice_ok (hp w) (own w) (rst (rg w)) (rst (rg w) + rlen (rg w)) VB) as (p & Ep & Vp & _ & _ & _ & _ & _ & Elp).
    { pose proof (zlen_nonneg (y :: l)). lia. } { destruct VB as (_ & ? & _). lia. }
    specialize (Elp ltac:(lia)). change (firstn _ (skipn _ ?b)) with (sub b (rst (rg w)) (rst (rg w) + rlen (rg w))) in Elp.
    rewrite HP in Elp.
    destruct (append_ok zero growth (hp w) s0 (y :: l) V0) as (s' & h' & E' & V' & El & _ & L' & _).
    assert (ET : RToSlice zero growth (rg w) s (hp w) = (Ok s', h')).
    { unfold RToSlice. rewrite HL0, En. erewrite xbind_ok by exact E0.
      replace (rst (rg w) + rlen (rg w) <=? GoSlice.len (own w)) with true by lia.
      erewrite xbind_ok by exact Ep. erewrite xbind_ok by (apply spread_ok; exact Vp). rewrite Elp. exact E'. }
    unfold ringEvent in E. erewrite xbind_ok in E by reflexivity.
    erewrite xbind_ok in E by (unfold mem; rewrite ET; reflexivity). injection E as <- <-.
    cbn. split; [assumption|]. split.
    - intros ->. rewrite zlen_cons in L'. pose proof (zlen_nonneg l). cbn in L'. lia.
    - rewrite El. rewrite (zlen_0_nil (elems (hp w) s0)); [reflexivity|]. rewrite elems_len; assumption.
  Qed.

  (** An insertion into a full ring leaves the old buffer alone. *)
  Lemma full_apart w l v ins es' w' l' : good w l -> RLen (rg w) = RCap (rg w) ->
    ins = EAppend v \/ ins = EPush v \/ ins = EPrepend v -> history zero growth w l (ins :: es') w' l' ->
    (forall e a i, In e es' -> writes e a i -> ~ inLen (own w) a i) -> good (mkWorld (hp w') (rg w)) l.
  Proof.
    intros Hg Hf Hi H Hw. inversion H as [|? ? ? x w1 ? ? ? Ha E H1]; subst. clear H.
    destruct (event_ok' w l ins x w1 Hg Ha E) as (_ & Hg1 & _ & K). pose proof (event_frame w l ins x w1 Hg Ha E) as F.
    assert (K' : (List.length (hp w) <= GoSlice.arr (own w1))%nat).
    { destruct K as [[K _]|[K _]]; [exfalso|assumption].
      destruct Hg1 as (_ & VB1 & HL1 & HC1 & _). destruct Hg as (_ & VB & HL & HC & _).
      cbn [abs buf XRing_Model.st XRing_Model.len] in *. rewrite (elems_len _ _ VB1), K in HC1. unfold RLen, RCap in Hf.
      unfold listAfter in HL1. destruct Hi as [->|[->| ->]]; cbn [dequeOp dequeStep snd] in HL1;
        rewrite ?zlen_app, ?zlen_cons, ?zlen_nil in HL1; lia. }
    destruct (history_ok _ _ _ _ _ H1 Hg1) as (_ & F1 & _). destruct Hg as (G & VB & HR).
    assert (E1 : elems (hp w1) (own w) = elems (hp w) (own w)).
    { eapply frame_elems; [exact F|exact VB|]. intros a i [-> _] [[Ha' _]|Hwr].
      - apply valid_arr in VB. lia.
      - destruct Hi as [->|[->| ->]]; exact Hwr. }
    assert (VB1 : valid (hp w1) (own w)) by (eapply grows_valid; [apply F|assumption]).
    assert (E2 : elems (hp w') (own w) = elems (hp w1) (own w)).
    { eapply frame_elems; [exact F1|exact VB1|]. intros a i Hin [[Ha' _]|(e & He & Hwr)].
      - destruct Hin as [Hin _]. apply valid_arr in VB. lia.
      - now apply (Hw e a i). }
    split; [eapply grows_goHeap; [apply F1|]; eapply grows_goHeap; [apply F|assumption]|].
    split; [eapply grows_valid; [apply F1|assumption]|]. cbn [hp rg]. unfold abs in *. rewrite E2, E1. exact HR.
  Qed.

  (** Calls that neither insert nor delete do not touch the ring variable. *)
  Definition fixedLen (e : event T) : Prop :=
    match e with
    | EAppend _ | EPush _ | EPrepend _ | EPop | EDeleteFirst | EDeleteLast => False
    | _ => True
    end.
  Lemma mem_rg A (m : X (heap T) A) w x w' : mem m w = (x, w') -> rg w' = rg w.
  Proof. unfold mem. destruct (m (hp w)). now intros [= _ <-]. Qed.
  Lemma fixed_rg e w x w' : fixedLen e -> ringEvent zero growth e w = (x, w') -> rg w' = rg w.
  Proof.
    intros Hf E. unfold ringEvent in E. erewrite xbind_ok in E by reflexivity.
    destruct e; cbn [fixedLen] in Hf; try contradiction; unfold xbind in E;
      try (match type of E with context [mem ?m w] => destruct (mem m w) as [[y| |] w1] eqn:Em end;
           try destruct y; unfold xret in E; injection E as <- <-; now apply mem_rg in Em);
      try (unfold xret in E; now injection E as <- <-).
  Qed.
End HeapRing.
