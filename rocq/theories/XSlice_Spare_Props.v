(** C119: what is deleted from a Slice stays in its memory. *)
From Verif Require Import Base Arr Exn GoSlice GoSlice_Proofs Algo_Proofs XSlice_Model XSlice_Spec XSlice_Proofs XSlice_Facts XSlice_Hist_Spec XSlice_Hist_Proofs XSlice_Spare_Spec XSlice_Spare_Proofs.
Local Open Scope exn_scope.
Local Open Scope string_scope.
Local Open Scope list_scope.
Local Open Scope Z_scope.

(** *** C119 is refuted, for every slice: after UnorderedDelete(i) a Sub up to
    the old length shows the deleted element behind the others, and so does one
    after DeleteLast or after Delete of the last element. *)
Theorem C119_deleted_refuted : forall T (zero : T) growth (h : heap T) s p x q,
  valid h s -> elems h s = p ++ x :: q ->
  forall e, e = EUnorderedDelete (zlen p) \/ (q = [] /\ (e = EDeleteLast \/ e = EDelete (zlen p))) ->
  forall r h' s', perform zero growth e (h, s) = (r, (h', s')) ->
  exists shown, Sub s' 0 (len s) h' = (Ok shown, h') /\ elems h' shown = elems h' s' ++ [x].
Proof.
  intros T zero growth h s p x q Hv El e He r h' s' E.
  destruct (valid_view _ _ Hv) as (pre & live & spare & post & V). rewrite (view_elems _ _ _ _ _ _ V) in El. subst live.
  destruct (leaves_step zero growth h s e _ _ _ _ V) as (pre' & spare' & post' & V' & L). rewrite E in V'. cbn [fst snd] in V'.
  assert (HS : spare' = x :: spare).
  { destruct He as [->|(-> & [-> | ->])]; inversion L; subst; try contradiction;
      try (match goal with H : ledit _ _ = None |- _ => exfalso; cbn in H end);
      try (match goal with H : _ ++ [_] = _ ++ [_] |- _ => apply app_inj_tail in H; destruct H as [_ <-]; reflexivity end).
    - assert (B : (0 <=? zlen p) && (zlen p <? zlen (p ++ x :: q)) = true) by (zpos; zsimp; lia). rewrite B in H.
      destruct (rev _) in H; discriminate.
    - match goal with H : zlen _ = zlen _, H2 : _ ++ _ :: _ = _ ++ _ :: _ |- _ =>
        rename H into HZ; rename H2 into HE end.
      assert (HL : List.length front = List.length p) by (unfold zlen in HZ; lia).
      destruct (app_inj_len _ _ _ _ HL HE) as [_ HX]. now injection HX as -> _.
    - destruct (p ++ [x]) eqn:Ep; [destruct p; discriminate|discriminate].
    - assert (B : (0 <=? zlen p) && (zlen p <? zlen (p ++ [x])) = true) by (zpos; zsimp; lia). rewrite B in H. discriminate. }
  subst spare'. pose proof V as [V1 V2 V3 V4]. pose proof V' as [W1 W2 W3 W4]. zpos.
  assert (HL : zlen (after e (p ++ x :: q)) + 1 = len s).
  { assert (EL : elems h' s' = after e (p ++ x :: q)) by (eapply view_elems; exact V').
    destruct He as [->|(-> & [-> | ->])]; unfold after, ledit in *.
    - assert (B : (0 <=? zlen p) && (zlen p <? zlen (p ++ x :: q)) = true) by (zpos; zsimp; lia). rewrite B in *.
      destruct (cut_mid p x q) as [C1 C2]. rewrite C1, C2 in *. cbn zeta in *.
      destruct (rev q) as [|z m] eqn:Eq; (assert (EQ : zlen q = zlen (rev q)) by (now rewrite zlen_rev)); rewrite Eq in EQ; zsimp; lia.
    - assert (C : match p ++ [x] with [] => None | _ => Some (removelast (p ++ [x])) end = Some p)
        by (destruct (p ++ [x]) eqn:Ep; [destruct p; discriminate|rewrite <- Ep, removelast_last; reflexivity]).
      rewrite C. zsimp. lia.
    - assert (B : (0 <=? zlen p) && (zlen p <? zlen (p ++ [x])) = true) by (zpos; zsimp; lia). rewrite B.
      destruct (cut_mid p x []) as [C1 C2]. rewrite C1, C2. rewrite app_nil_r. zsimp. lia. }
  destruct (sub_view growth h' s' _ _ _ _ 0 (len s) V') as (shown & ES & EE); [rewrite V3; pose proof (zlen_nonneg (p ++ x :: q)); lia|rewrite W4, zlen_cons; lia|].
  exists shown. split; [exact ES|]. rewrite EE, (view_elems _ _ _ _ _ _ V'). cbn [Z.to_nat skipn].
  change (x :: spare) with ([x] ++ spare). rewrite app_assoc. apply firstn_zlen. zsimp. lia.
Qed.

(** *** C119, exactly: over every history of changes, what Sub shows up to the
    capacity are the elements and behind them what the calls left there. *)
Theorem C119_spare_partial : forall T (zero : T) growth (h : heap T) s es, valid h s ->
  forall rs h' s', runOps (perform zero growth) es (h, s) = (rs, (h', s')) ->
  exists spare, leavesAll zero es (elems h s) (beyond h s) spare /\
    Cap s' = zlen (afterAll es (elems h s)) + zlen spare /\
    forall i j, 0 <= i <= j -> j <= Cap s' ->
    exists shown, Sub s' i j h' = (Ok shown, h') /\
      elems h' shown = firstn (Z.to_nat (j - i)) (skipn (Z.to_nat i) (afterAll es (elems h s) ++ spare)).
Proof.
  intros T zero growth h s es Hv rs h' s' E.
  destruct (valid_view _ _ Hv) as (pre & live & spare & post & V).
  rewrite (view_elems _ _ _ _ _ _ V), (view_beyond _ _ _ _ _ _ V).
  destruct (leaves_hist zero growth es h s _ _ _ _ V) as (pre' & spare' & post' & V' & L).
  unfold endState in V'. rewrite E in V'. cbn [fst snd] in V'.
  exists spare'. split; [exact L|]. split; [apply (vw_cap _ _ _ _ _ _ V')|].
  intros i j Hi Hj. eapply sub_view; eauto.
Qed.

(** Non-vacuity: a slice 1 2 3 with no spare capacity; UnorderedDelete(0),
    DeleteLast and Append(7) leave 3 7 with 1 behind them. *)
Definition h119 : heap Z := [[]; []; [1; 2; 3]].
Definition s119 : slice := mkSlice 2 0 3 3.
Example C119_case :
  valid h119 s119 /\ elems h119 s119 = [] ++ 1 :: [2; 3] /\
  perform 0 (fun _ n => n) (EUnorderedDelete 0) (h119, s119) = (Ok tt, ([[]; []; [3; 2; 1]], mkSlice 2 0 2 3)) /\
  runOps (perform 0 (fun _ n => n)) [EUnorderedDelete 0; EDeleteLast; EAppend 7] (h119, s119)
    = ([Ok tt; Ok tt; Ok tt], ([[]; []; [3; 7; 1]], mkSlice 2 0 2 3)) /\
  leavesAll 0 [EUnorderedDelete 0; EDeleteLast; EAppend 7] [1; 2; 3] [] [1].
Proof.
  split. { split; [cbn; lia|]. split; [cbn; lia|]. exists [1; 2; 3]. split; [reflexivity|cbn; lia]. }
  split; [reflexivity|]. split; [reflexivity|]. split; [reflexivity|].
  eapply la_cons; [apply (lv_unordered 0 [] 1 [2; 3])|]. eapply la_cons; [apply (lv_deletelast 0 [3] 2)|].
  eapply la_cons; [|apply la_nil]. apply (lv_fits 0 (EAppend 7) [3] [3; 7] [2; 1] eq_refl I). cbn. lia.
Qed.

Print Assumptions C119_deleted_refuted.
Print Assumptions C119_spare_partial.
