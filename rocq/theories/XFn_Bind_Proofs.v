(** Proofs about Bind. *)
From Verif Require Import Base Arr Exn XFn_Bind_Model XFn_Bind_Spec.

Section Proofs.
  Context {ty pay : Type} (ty_eqb : ty -> ty -> bool)
          (Heq : forall a b, ty_eqb a b = true <-> a = b).
  Variables (canConv : value ty pay -> ty -> bool) (conv : value ty pay -> ty -> value ty pay).

  Variables (show : ty -> string) (showFn : sig ty -> string).

  Notation barg := (barg ty pay).
  Notation sig := (sig ty).
  Notation argLoop := (argLoop ty_eqb canConv conv show showFn).
  Notation Bind := (Bind ty_eqb canConv conv show showFn).
  Notation sameOuts := (sameOuts ty_eqb show showFn).
  Notation restLoop := (restLoop ty_eqb show showFn).

  Lemma zget_nth {A} (l : list A) i : 0 <= i -> zget l i = nth_error l (Z.to_nat i).
  Proof. intros H. unfold zget. destruct (Z.ltb_spec i 0); [lia|reflexivity]. Qed.
  Lemma zget_of_nat {A} (l : list A) i : zget l (Z.of_nat i) = nth_error l i.
  Proof. rewrite zget_nth by lia. now rewrite Nat2Z.id. Qed.
  Lemma zget_some {A} (l : list A) i : 0 <= i < zlen l -> exists a, zget l i = Some a.
  Proof.
    intros H. rewrite zget_nth by lia. destruct (nth_error l (Z.to_nat i)) eqn:E; eauto.
    apply nth_error_None in E. unfold zlen in H. lia.
  Qed.
  Lemma zget_range {A} (l : list A) i a : zget l i = Some a -> 0 <= i < zlen l.
  Proof.
    unfold zget. destruct (Z.ltb_spec i 0); [discriminate|]. intros E.
    assert (nth_error l (Z.to_nat i) <> None) by congruence. apply nth_error_Some in H0.
    unfold zlen. lia.
  Qed.

  Lemma zset_some {A} (l : list A) i x : 0 <= i < zlen l -> zset l i x = Some (upd l (Z.to_nat i) x).
  Proof. intros H. unfold zset. destruct (Z.leb_spec 0 i), (Z.ltb_spec i (zlen l)); try lia. reflexivity. Qed.

  Lemma nth_upd {A} (l : list A) n x j : (n < List.length l)%nat ->
    nth_error (upd l n x) j = if Nat.eqb j n then Some x else nth_error l j.
  Proof.
    revert n j; induction l as [|y l IH]; cbn; intros n j H; [lia|].
    destruct n as [|n], j as [|j]; cbn; auto. apply IH. lia.
  Qed.
  Lemma len_upd {A} (l : list A) n x : List.length (upd l n x) = List.length l.
  Proof. revert n; induction l as [|y l IH]; intros [|n]; cbn; auto. Qed.

  Lemma sameOuts_spec (s d : sig) a : forall i b, List.length a = List.length b ->
    (sameOuts s d i a b = Ok tt /\ a = b) \/ (exists e, sameOuts s d i a b = Panic e) /\ a <> b.
  Proof.
    induction a as [|x a IH]; intros i [|y b] H; cbn in *; try discriminate; [left; auto|].
    destruct (ty_eqb x y) eqn:E.
    - apply Heq in E; subst y. destruct (IH (i + 1) b) as [[H1 ->]|[H1 H2]]; [lia|left; auto|right].
      split; auto. congruence.
    - right. split; eauto. intros [= -> ->]. assert (ty_eqb y y = true) by now apply Heq. congruence.
  Qed.

  (** One bind argument fits parameter type [t]. *)
  Definition argok (d : sig) (a : barg) (t : ty) : Prop :=
    match a with
    | APh k => 1 <= k <= zlen (ins d) /\ zget (ins d) (k - 1) = Some t
    | AVal v => canConv v t = true
    | ANil => False
    end.

  Fixpoint phsOf (i : Z) (l : list barg) : list phInfo :=
    match l with
    | [] => []
    | APh k :: l' => {| fromArg := k - 1; toArg := i |} :: phsOf (i + 1) l'
    | _ :: l' => phsOf (i + 1) l'
    end.

  Fixpoint valsOf (ts : list ty) (l : list barg) : list (option (value ty pay)) :=
    match l, ts with
    | _, [] => []
    | [], _ :: ts' => None :: valsOf ts' []
    | AVal v :: l', t :: ts' => Some (conv v t) :: valsOf ts' l'
    | _ :: l', _ :: ts' => None :: valsOf ts' l'
    end.

  Lemma valsOf_nil ts : valsOf ts [] = repeat None (List.length ts).
  Proof. induction ts; cbn; congruence. Qed.

  Lemma highest_nonneg (l : list barg) : 0 <= highest l.
  Proof. induction l as [|[]]; cbn; lia. Qed.

  Lemma upd_app {A} (l1 l2 : list A) n x : upd (l1 ++ l2) (List.length l1 + n) x = l1 ++ upd l2 n x.
  Proof. induction l1; cbn; congruence. Qed.

  (** Forwards: arguments that fit are accepted. *)
  Lemma argLoop_ok (s d : sig) args : forall ts0 ts v0 phs di,
    ins s = ts0 ++ ts -> List.length v0 = List.length ts0 ->
    (List.length args <= List.length ts)%nat ->
    (forall j a t, nth_error args j = Some a -> nth_error ts j = Some t -> argok d a t) ->
    argLoop s d args (zlen ts0) (v0 ++ valsOf ts []) phs di =
    Ok (v0 ++ valsOf ts args, phs ++ phsOf (zlen ts0) args, Z.max di (highest args) ) \/ di < 0.
  Proof.
    induction args as [|a args IH]; intros ts0 ts v0 phs di Hs Hv Hl Hok.
    - cbn. rewrite app_nil_r. destruct (Z.ltb_spec di 0); auto. left. rewrite Z.max_l by lia. reflexivity.
    - destruct (Z.ltb_spec di 0) as [|Hdi]; auto. left.
      destruct ts as [|t ts]; [cbn in Hl; lia|].
      pose proof (Hok 0%nat a t eq_refl eq_refl) as Ha.
      assert (Ht : zget (ins s) (zlen ts0) = Some t).
      { rewrite Hs. unfold zlen. rewrite zget_of_nat, nth_error_app2, Nat.sub_diag by lia. reflexivity. }
      assert (Hz : zlen ts0 + 1 = zlen (ts0 ++ [t])) by (unfold zlen; rewrite app_length; cbn; lia).
      destruct a as [k|v|]; cbn [argok] in Ha; [| |contradiction].
      + destruct Ha as [Hk Hd]. cbn [XFn_Bind_Model.argLoop].
        destruct (Z.ltb_spec (k - 1) 0), (Z.leb_spec (zlen (ins d)) (k - 1)); try lia. cbn [orb].
        unfold typeAt. rewrite Ht, Hd. cbn [of_opt obind].
        replace (ty_eqb t t) with true by (symmetry; now apply Heq). cbn [negb].
        rewrite Hz. replace (v0 ++ valsOf (t :: ts) []) with ((v0 ++ [None]) ++ valsOf ts [])
          by (cbn; now rewrite <- app_assoc).
        destruct (IH (ts0 ++ [t]) ts (v0 ++ [None]) (phs ++ [{| fromArg := k - 1; toArg := zlen ts0 |}])
                     (Z.max di (k - 1 + 1))) as [->|]; try lia.
        * rewrite <- app_assoc. assumption.
        * rewrite !app_length, Hv. reflexivity.
        * cbn in Hl. lia.
        * intros j a' t' H1 H2. apply (Hok (S j)); assumption.
        * cbn [phsOf highest valsOf]. rewrite <- !app_assoc, Hz.
          replace (Z.max (Z.max di (k - 1 + 1)) (highest args)) with (Z.max di (Z.max k (highest args))) by lia.
          reflexivity.
      + cbn [XFn_Bind_Model.argLoop]. unfold typeAt. rewrite Ht. cbn [of_opt obind]. rewrite Ha. cbn [negb].
        rewrite zset_some.
        2:{ rewrite zlen_app. unfold zlen. cbn. lia. }
        cbn [of_opt obind].
        replace (Z.to_nat (zlen ts0)) with (List.length v0 + 0)%nat by (unfold zlen; lia).
        rewrite upd_app. cbn [valsOf upd]. rewrite Hz.
        replace (v0 ++ Some (conv v t) :: valsOf ts []) with ((v0 ++ [Some (conv v t)]) ++ valsOf ts [])
          by (now rewrite <- app_assoc).
        destruct (IH (ts0 ++ [t]) ts (v0 ++ [Some (conv v t)]) phs di) as [->|]; try lia.
        * rewrite <- app_assoc. assumption.
        * rewrite !app_length, Hv. reflexivity.
        * cbn in Hl. lia.
        * intros j a' t' H1 H2. apply (Hok (S j)); assumption.
        * cbn [phsOf highest]. rewrite <- !app_assoc, Hz. reflexivity.
  Qed.

  (** Backwards: accepted arguments fit. *)
  Lemma argLoop_inv (s d : sig) args : forall i vals phs di r,
    0 <= i -> argLoop s d args i vals phs di = Ok r ->
    forall j a t, nth_error args j = Some a -> zget (ins s) (i + Z.of_nat j) = Some t -> argok d a t.
  Proof.
    induction args as [|a args IH]; intros i vals phs di r Hi H j a' t Hj Ht.
    - destruct j; discriminate.
    - destruct j as [|j]; cbn in Hj.
      + inversion Hj; subst a'; clear Hj. replace (i + Z.of_nat 0) with i in Ht by lia.
        destruct a as [k|v|]; cbn in H; [| |discriminate].
        * destruct (Z.ltb_spec (k - 1) 0); [discriminate|].
          destruct (Z.leb_spec (zlen (ins d)) (k - 1)); [discriminate|]. cbn [orb] in H.
          unfold typeAt in H. rewrite Ht in H. cbn in H.
          destruct (zget (ins d) (k - 1)) as [b|] eqn:Eb; cbn in H; [|discriminate].
          destruct (ty_eqb t b) eqn:E; cbn in H; [|discriminate]. apply Heq in E; subst b.
          split; [lia|assumption].
        * unfold typeAt in H. rewrite Ht in H. cbn in H.
          destruct (canConv v t) eqn:E; cbn in H; [exact E|discriminate].
      + assert (Hn : exists vals' phs' di', argLoop s d args (i + 1) vals' phs' di' = Ok r).
        { destruct a as [k|v|]; cbn in H; [| |discriminate].
          - destruct ((k - 1 <? 0) || (zlen (ins d) <=? k - 1)); [discriminate|].
            destruct (typeAt (ins s) i); cbn in H; try discriminate.
            destruct (typeAt (ins d) (k - 1)); cbn in H; try discriminate.
            destruct (negb _); [discriminate|]. eauto.
          - destruct (typeAt (ins s) i); cbn in H; try discriminate.
            destruct (negb _); [discriminate|].
            destruct (of_opt idx_msg _) ; cbn in H; try discriminate. eauto. }
        destruct Hn as (v' & p' & d' & Hn).
        eapply (IH (i + 1)); eauto; [lia|]. rewrite <- Ht. f_equal. lia.
  Qed.

  Fixpoint restOf (n : nat) (i di : Z) : list phInfo :=
    match n with
    | O => []
    | S n' => {| fromArg := di; toArg := i |} :: restOf n' (i + 1) (di + 1)
    end.

  Lemma restLoop_ok (s d : sig) n : forall i phs di,
    (forall j, 0 <= j < Z.of_nat n -> exists t, zget (ins s) (i + j) = Some t /\
        zget (ins d) (di + j) = Some t) ->
    restLoop s d n i phs di = Ok (phs ++ restOf n i di).
  Proof.
    induction n as [|n IH]; intros i phs di H; cbn.
    - now rewrite app_nil_r.
    - destruct (H 0) as (t & H1 & H2); [lia|]. rewrite Z.add_0_r in H1, H2. unfold typeAt.
      rewrite H1, H2. cbn. replace (ty_eqb t t) with true by (symmetry; now apply Heq). cbn.
      rewrite IH; [now rewrite <- app_assoc|]. intros j Hj. destruct (H (1 + j)) as (t' & H3 & H4); [lia|].
      exists t'. replace (i + 1 + j) with (i + (1 + j)) by lia.
      replace (di + 1 + j) with (di + (1 + j)) by lia. auto.
  Qed.

  Lemma restLoop_inv (s d : sig) n : forall i phs di r,
    restLoop s d n i phs di = Ok r ->
    forall j, 0 <= j < Z.of_nat n -> exists t, zget (ins s) (i + j) = Some t /\
        zget (ins d) (di + j) = Some t.
  Proof.
    induction n as [|n IH]; intros i phs di r H j Hj; [lia|]. cbn in H. unfold typeAt in H.
    destruct (zget (ins s) i) as [a|] eqn:Ea; cbn in H; [|discriminate].
    destruct (zget (ins d) di) as [b|] eqn:Eb; cbn in H; [|discriminate].
    destruct (ty_eqb a b) eqn:E; cbn in H; [|discriminate]. apply Heq in E; subst b.
    destruct (Z.eqb_spec j 0) as [->|].
    - exists a. rewrite !Z.add_0_r. auto.
    - destruct (IH _ _ _ _ H (j - 1)) as (t & H1 & H2); [lia|]. exists t.
      replace (i + j) with (i + 1 + (j - 1)) by lia.
      replace (di + j) with (di + 1 + (j - 1)) by lia. auto.
  Qed.

  Lemma highest_le_ok (d : sig) ts args : 
    (List.length args <= List.length ts)%nat ->
    (forall j a t, nth_error args j = Some a -> nth_error ts j = Some t -> argok d a t) ->
    highest args <= zlen (ins d).
  Proof.
    revert ts. induction args as [|a args IH]; intros ts Hl H; cbn.
    - unfold zlen; lia.
    - destruct ts as [|t ts]; [cbn in Hl; lia|].
      assert (highest args <= zlen (ins d)).
      { apply (IH ts); [cbn in Hl; lia|]. intros j; apply (H (S j)). }
      pose proof (H 0%nat a t eq_refl eq_refl) as Ha. destruct a; cbn in Ha; try lia.
  Qed.

  (** The result of an accepted Bind. *)
  Definition boundOf (s : sig) (args : list barg) : bound ty pay :=
    {| b_src := s; values := valsOf (ins s) args;
       placeholders := phsOf 0 args ++
         restOf (List.length (ins s) - List.length args) (zlen args) (highest args) |}.

  Lemma bindable_argok (s d : sig) args : bindable canConv s d args ->
    forall j a t, nth_error args j = Some a -> nth_error (ins s) j = Some t -> argok d a t.
  Proof.
    intros [] j a t Ha Ht. destruct a as [k|v|]; cbn.
    - split; [|eauto]. apply ok_range. eapply nth_error_In; eauto.
    - eauto.
    - apply ok_nil. eapply nth_error_In; eauto.
  Qed.

  Lemma Bind_ok (s d : sig) args : bindable canConv s d args ->
    Bind (SrcFunc s) (DestFunc d) args = Ok (boundOf s args).
  Proof.
    intros HB. pose proof (bindable_argok _ _ _ HB) as Hok. destruct HB.
    unfold XFn_Bind_Model.Bind. rewrite ok_outs.
    rewrite Z.eqb_refl. cbn [negb].
    destruct (sameOuts_spec s d (outs d) 0 (outs d)) as [[-> _]|[_ H]]; [auto| |congruence]. cbn [obind].
    destruct (Z.ltb_spec (zlen (ins s)) (zlen args)); [lia|].
    assert (Hl : (List.length args <= List.length (ins s))%nat) by (unfold zlen in *; lia).
    pose proof (highest_le_ok d (ins s) args Hl Hok) as Hh.
    destruct (argLoop_ok s d args [] (ins s) [] [] 0) as [E|]; auto; [|lia].
    cbn [app] in E. change (zlen (@nil ty)) with 0 in E. rewrite valsOf_nil in E. rewrite E. cbn [obind].
    pose proof (highest_nonneg args).
    rewrite Z.max_r by lia.
    set (need := zlen (ins s) - zlen args) in *.
    assert (Hneed : highest args + need <= zlen (ins d)).
    { destruct (Z.eqb_spec need 0) as [->|]; [lia|].
      destruct (nth_error (ins s) (List.length (ins s) - 1)) as [t|] eqn:Et.
      - assert (Hr := ok_rest (List.length (ins s) - 1)%nat t).
        specialize (Hr ltac:(unfold zlen in *; lia) Et). apply zget_range in Hr.
        unfold zlen in *. lia.
      - apply nth_error_None in Et. unfold zlen in *. lia. }
    destruct (Z.ltb_spec (zlen (ins d) - highest args) need); [lia|].
    rewrite restLoop_ok.
    - cbn [obind]. unfold boundOf. do 3 f_equal. unfold need, zlen. f_equal. lia.
    - intros j Hj. destruct (zget_some (ins s) (zlen args + j)) as [t Ht]; [unfold zlen in *; lia|].
      exists t. split; [assumption|].
      rewrite zget_nth in Ht by (unfold zlen; lia).
      assert (Hr := ok_rest (Z.to_nat (zlen args + j)) t). rewrite <- Hr; auto.
      + f_equal. unfold zlen. lia.
      + unfold zlen; lia.
  Qed.

  Lemma Bind_inv src dest args b : Bind src dest args = Ok b ->
    exists s d, src = SrcFunc s /\ dest = DestFunc d /\ bindable canConv s d args.
  Proof.
    unfold XFn_Bind_Model.Bind. destruct src as [| |s]; try discriminate.
    destruct dest as [|d]; try discriminate. intros H. exists s, d. split; [auto|split; [auto|]].
    destruct (Z.eqb_spec (zlen (outs s)) (zlen (outs d))) as [Hlo|]; cbn [negb] in H; [|discriminate].
    destruct (sameOuts_spec s d (outs s) 0 (outs d)) as [[Hs Ho]|[[e Hs] _]];
      [unfold zlen in Hlo; lia| |rewrite Hs in H; discriminate].
    rewrite Hs in H. cbn [obind] in H.
    destruct (Z.ltb_spec (zlen (ins s)) (zlen args)); [discriminate|].
    destruct (argLoop s d args 0 _ [] 0) as [r| |] eqn:EA; cbn [obind] in H; try discriminate.
    assert (Hl : (List.length args <= List.length (ins s))%nat) by (unfold zlen in *; lia).
    assert (Hok : forall j a t, nth_error args j = Some a -> nth_error (ins s) j = Some t -> argok d a t).
    { intros j a t Ha Ht. eapply (argLoop_inv s d args 0); eauto; [lia|].
      cbn [Z.add]. rewrite zget_of_nat. assumption. }
    destruct (argLoop_ok s d args [] (ins s) [] [] 0) as [E|]; auto; [|lia].
    cbn [app] in E. change (zlen (@nil ty)) with 0 in E. rewrite valsOf_nil in E.
    rewrite E in EA. inversion EA; subst r; clear EA.
    pose proof (highest_nonneg args).
    rewrite Z.max_r in H by lia.
    destruct (Z.ltb_spec (zlen (ins d) - highest args) (zlen (ins s) - zlen args));
      [destruct (missingNames _ _ _ _ _ _); discriminate|].
    destruct (restLoop _ _ _ _ _ _) as [phs| |] eqn:ER; cbn [obind] in H; try discriminate.
    split; auto.
    - intros i v t Ha Ht. apply (Hok i _ t Ha Ht).
    - intros Hin. apply In_nth_error in Hin as [i Hi].
      destruct (nth_error (ins s) i) as [t|] eqn:Et.
      + apply (Hok i _ t Hi Et).
      + apply nth_error_None in Et. assert (nth_error args i <> None) by congruence.
        apply nth_error_Some in H3. lia.
    - intros k Hin. apply In_nth_error in Hin as [i Hi].
      destruct (nth_error (ins s) i) as [t|] eqn:Et.
      + apply (Hok i _ t Hi Et).
      + apply nth_error_None in Et. assert (nth_error args i <> None) by congruence.
        apply nth_error_Some in H3. lia.
    - intros i k t Ha Ht. apply (Hok i _ t Ha Ht).
    - intros i t Hi Ht.
      destruct (restLoop_inv _ _ _ _ _ _ _ ER (Z.of_nat i - zlen args)) as (t' & H3 & H4).
      + assert (nth_error (ins s) i <> None) by congruence. apply nth_error_Some in H3.
        unfold zlen in *. lia.
      + replace (zlen args + (Z.of_nat i - zlen args)) with (Z.of_nat i) in H3 by lia.
        rewrite zget_of_nat in H3. congruence.
  Qed.

  Lemma Bind_no_diverge src dest args : Bind src dest args <> Diverge.
  Proof.
    assert (HA : forall s d args i vals phs di, argLoop s d args i vals phs di <> Diverge).
    { intros s d a. induction a as [|[k|v|] a IH]; intros i vals phs di; cbn; try discriminate.
      - unfold typeAt. destruct (_ || _); [discriminate|]. destruct (zget (ins s) i); cbn; [|discriminate].
        destruct (zget (ins d) _); cbn; [|discriminate]. destruct (negb _); [discriminate|]. apply IH.
      - unfold typeAt. destruct (zget (ins s) i); cbn; [|discriminate].
        destruct (negb _); [discriminate|]. destruct (zset _ _ _); cbn; [apply IH|discriminate]. }
    assert (HR : forall s d n i phs di, restLoop s d n i phs di <> Diverge).
    { intros s d n. induction n as [|n IH]; intros i phs di; cbn; [discriminate|]. unfold typeAt.
      destruct (zget (ins s) i); cbn; [|discriminate].
      destruct (zget (ins d) _); cbn; [|discriminate]. destruct (negb _); [discriminate|]. apply IH. }
    assert (HS : forall s d a i b, sameOuts s d i a b <> Diverge).
    { intros s d a. induction a as [|x a IH]; intros i [|y b]; cbn; try discriminate.
      destruct (ty_eqb x y); [apply IH|discriminate]. }
    assert (HM : forall s m n i sb, missingNames show s m n i sb <> Diverge).
    { intros s m n. induction n as [|n IH]; intros i sb; cbn; [discriminate|]. unfold typeAt.
      destruct (zget (ins s) i); cbn; [apply IH|discriminate]. }
    unfold XFn_Bind_Model.Bind. destruct src as [| |s]; try discriminate.
    destruct dest as [|d]; try discriminate. destruct (negb _); [discriminate|].
    specialize (HS s d (outs s) 0 (outs d)). destruct (sameOuts _ _ _ _ _); cbn [obind]; try congruence.
    destruct (_ <? _); [discriminate|].
    match goal with |- obind ?m _ <> _ => pose proof (HA s d args 0 (repeat None (List.length (ins s))) [] 0);
      destruct m as [[[vals phs] di]| |]; cbn [obind]; try congruence end.
    destruct (_ <? _).
    { match goal with |- obind ?m _ <> _ => assert (m <> Diverge) by apply HM; destruct m; cbn [obind]; congruence end. }
    match goal with |- obind ?m _ <> _ => assert (m <> Diverge) by apply HR; destruct m; cbn [obind]; congruence end.
  Qed.

  (** ** Calls *)
  Variables (assignable : ty -> ty -> bool) (elem : ty -> ty)
            (mkslice : ty -> list (value ty pay) -> value ty pay).

  Lemma fill_spec (call : list (value ty pay)) phs : forall cv,
    (forall p, In p phs -> 0 <= fromArg p < zlen call /\ 0 <= toArg p < zlen cv) ->
    NoDup (map toArg phs) ->
    exists cv', fill phs call cv = Ok cv' /\ zlen cv' = zlen cv /\
      (forall p, In p phs -> zget cv' (toArg p) = Some (zget call (fromArg p))) /\
      (forall j, ~ In j (map toArg phs) -> zget cv' j = zget cv j).
  Proof.
    induction phs as [|p phs IH]; intros cv Hr Hn; cbn [fill].
    - exists cv. repeat split; auto. intros p [].
    - destruct (Hr p (or_introl eq_refl)) as [Hf Ht].
      destruct (zget_some call _ Hf) as [v Hv]. rewrite Hv. cbn [of_opt obind].
      rewrite zset_some by assumption. cbn [of_opt obind].
      inversion Hn as [|x l Hx Hn']; subst.
      destruct (IH (upd cv (Z.to_nat (toArg p)) (Some v))) as (cv' & H1 & H2 & H3 & H4).
      + intros q Hq. specialize (Hr q (or_intror Hq)). unfold zlen in *. rewrite len_upd. assumption.
      + assumption.
      + exists cv'. split; [assumption|]. split; [unfold zlen in *; rewrite H2, len_upd; auto|].
        assert (Hu : forall j, 0 <= j -> zget (upd cv (Z.to_nat (toArg p)) (Some v)) j =
                       if j =? toArg p then Some (Some v) else zget cv j).
        { intros j Hj. rewrite !zget_nth by assumption. rewrite nth_upd by (unfold zlen in *; lia).
          destruct (Z.eqb_spec j (toArg p)), (Nat.eqb_spec (Z.to_nat j) (Z.to_nat (toArg p))); auto; lia. }
        split.
        * intros q [<-|Hq]; auto. rewrite H4 by assumption. rewrite Hu by lia.
          rewrite Z.eqb_refl, Hv. reflexivity.
        * intros j Hj. cbn in Hj. rewrite H4 by tauto.
          destruct (Z.ltb_spec j 0).
          { unfold zget. destruct (Z.ltb_spec j 0); [reflexivity|lia]. }
          rewrite Hu by lia. destruct (Z.eqb_spec j (toArg p)) as [->|]; tauto.
  Qed.

  Lemma phsOf_in args : forall i p, In p (phsOf i args) ->
    exists j k, nth_error args j = Some (APh k) /\ p = {| fromArg := k - 1; toArg := i + Z.of_nat j |}.
  Proof.
    induction args as [|a args IH]; intros i p; [intros []|].
    destruct a as [k|v|]; cbn [phsOf]; intros H.
    - destruct H as [<-|H].
      + exists 0%nat, k. rewrite Z.add_0_r. auto.
      + destruct (IH _ _ H) as (j & k' & H1 & ->). exists (S j), k'. split; auto. f_equal; lia.
    - destruct (IH _ _ H) as (j & k' & H1 & ->). exists (S j), k'. split; auto. f_equal; lia.
    - destruct (IH _ _ H) as (j & k' & H1 & ->). exists (S j), k'. split; auto. f_equal; lia.
  Qed.

  Lemma phsOf_has args : forall i j k, nth_error args j = Some (APh k) ->
    In {| fromArg := k - 1; toArg := i + Z.of_nat j |} (phsOf i args).
  Proof.
    induction args as [|a args IH]; intros i j k H; [destruct j; discriminate|].
    destruct j as [|j]; cbn in H.
    - inversion H; subst. cbn. left. f_equal; lia.
    - specialize (IH (i + 1) j k H). replace (i + Z.of_nat (S j)) with (i + 1 + Z.of_nat j) by lia.
      destruct a; cbn [phsOf]; auto. right. assumption.
  Qed.

  Lemma restOf_in n : forall i di p, In p (restOf n i di) <->
    exists j, 0 <= j < Z.of_nat n /\ p = {| fromArg := di + j; toArg := i + j |}.
  Proof.
    induction n as [|n IH]; intros i di p; cbn [restOf In].
    - split; [intros []|]. intros (j & H & _). lia.
    - rewrite IH. split.
      + intros [<-|(j & H & ->)]; [exists 0|exists (j + 1)]; split; try lia; f_equal; lia.
      + intros (j & H & ->). destruct (Z.eqb_spec j 0) as [->|].
        * left. f_equal; lia.
        * right. exists (j - 1). split; [lia|]. f_equal; lia.
  Qed.

  Lemma phsOf_nodup args : forall i, NoDup (map toArg (phsOf i args)).
  Proof.
    induction args as [|a args IH]; intros i; [constructor|]. destruct a as [k|v|]; cbn; auto.
    constructor; auto. intros H. apply in_map_iff in H as (p & Hp & Hin).
    apply phsOf_in in Hin as (j & k' & _ & ->). cbn in Hp. lia.
  Qed.

  Lemma restOf_nodup n : forall i di, NoDup (map toArg (restOf n i di)).
  Proof.
    induction n as [|n IH]; intros i di; cbn; constructor; auto.
    intros H. apply in_map_iff in H as (p & Hp & Hin).
    apply restOf_in in Hin as (j & Hj & ->). cbn in Hp. lia.
  Qed.

  Lemma nodup_app {A} (l1 l2 : list A) : NoDup l1 -> NoDup l2 ->
    (forall x, In x l1 -> In x l2 -> False) -> NoDup (l1 ++ l2).
  Proof.
    induction l1 as [|x l1 IH]; cbn; intros H1 H2 H; [assumption|]. inversion H1; subst.
    constructor; [|apply IH; eauto]. rewrite in_app_iff. intros [|]; eauto.
  Qed.

  Lemma valsOf_nth args : forall ts i t, nth_error ts i = Some t ->
    nth_error (valsOf ts args) i =
    Some (match nth_error args i with Some (AVal v) => Some (conv v t) | _ => None end).
  Proof.
    induction args as [|a args IH]; intros ts i t H.
    - revert i H. induction ts as [|t' ts IHt]; intros [|i] H; cbn in *; try discriminate; auto.
      rewrite (IHt i H). destruct i; reflexivity.
    - destruct ts as [|t' ts]; [destruct i; discriminate|].
      destruct i as [|i]; cbn in H.
      + inversion H; subst. destruct a; reflexivity.
      + destruct a; cbn; rewrite (IH ts i t H); reflexivity.
  Qed.

  Lemma valsOf_len ts : forall args, List.length (valsOf ts args) = List.length ts.
  Proof.
    induction ts as [|t ts IH]; intros [|[] args]; cbn; auto.
  Qed.

  Hypothesis convT : forall v t, canConv v t = true -> vty (conv v t) = t.

  (** The values handed to src. *)
  Lemma fill_routed (s d : sig) args call :
    bindable canConv s d args -> map vty call = ins d ->
    exists cv, fill (placeholders (boundOf s args)) call (values (boundOf s args)) = Ok cv /\
      List.length cv = List.length (ins s) /\
      forall i t, nth_error (ins s) i = Some t ->
        exists v, nth_error cv i = Some (Some v) /\
          routed conv args call i t = Some v /\ vty v = t.
  Proof.
    intros HB Hc. pose proof (bindable_argok _ _ _ HB) as Hok.
    assert (Hlc : zlen call = zlen (ins d)) by (rewrite <- Hc; unfold zlen; now rewrite map_length).
    assert (Hl : (List.length args <= List.length (ins s))%nat) by (destruct HB; unfold zlen in *; lia).
    pose proof (highest_nonneg args) as Hh0.
    assert (Hcv : zlen (valsOf (ins s) args) = zlen (ins s)) by (unfold zlen; now rewrite valsOf_len).
    destruct (fill_spec call (placeholders (boundOf s args)) (values (boundOf s args)))
      as (cv & H1 & H2 & H3 & H4).
    - cbn [boundOf placeholders values]. intros p Hp. rewrite Hcv. apply in_app_iff in Hp as [Hp|Hp].
      + apply phsOf_in in Hp as (j & k & Hj & ->). cbn.
        assert (1 <= k <= zlen (ins d)) by (destruct HB as [_ _ _ _ Hr _ _]; apply Hr; eapply nth_error_In; eauto).
        assert (nth_error args j <> None) by congruence. apply nth_error_Some in H0.
        unfold zlen in *. lia.
      + apply restOf_in in Hp as (j & Hj & ->). cbn.
        destruct (nth_error (ins s) (Z.to_nat (zlen args + j))) as [t|] eqn:Et.
        * destruct HB as [_ _ _ _ _ _ Hr]. specialize (Hr (Z.to_nat (zlen args + j)) t).
          specialize (Hr ltac:(unfold zlen in *; lia) Et). apply zget_range in Hr.
          unfold zlen in *. lia.
        * apply nth_error_None in Et. unfold zlen in *. lia.
    - cbn [boundOf placeholders]. rewrite map_app. apply nodup_app.
      + apply phsOf_nodup.
      + apply restOf_nodup.
      + intros x Hx Hy. apply in_map_iff in Hx as (p & <- & Hp). apply in_map_iff in Hy as (q & Hq & Hq').
        apply phsOf_in in Hp as (j & k & Hj & ->). apply restOf_in in Hq' as (j' & Hj' & ->).
        cbn in Hq. assert (nth_error args j <> None) by congruence. apply nth_error_Some in H.
        unfold zlen in *. lia.
    - exists cv. split; [assumption|]. cbn [boundOf values] in H2. split; [unfold zlen in *; lia|].
      cbn [boundOf placeholders values] in H3, H4. intros i t Ht.
      assert (Hty : forall k, zget (ins d) k = Some t -> exists v, zget call k = Some v /\ vty v = t).
      { intros k Hk. rewrite <- Hc in Hk. pose proof (zget_range _ _ _ Hk). rewrite zget_nth in Hk by lia.
        rewrite zget_nth by lia. rewrite nth_error_map in Hk. destruct (nth_error call (Z.to_nat k)) as [v|]; [|discriminate].
        exists v. cbn in Hk. split; congruence. }
      unfold routed. destruct (nth_error args i) as [a|] eqn:Ea.
      + pose proof (Hok i a t Ea Ht) as Ha. destruct a as [k|v|]; cbn in Ha; [| |contradiction].
        * destruct Ha as [Hk Hd]. destruct (Hty _ Hd) as (v & Hv & Hvt). exists v.
          split; [|auto]. pose proof (phsOf_has args 0 i k Ea) as Hp. cbn [Z.add] in Hp.
          specialize (H3 _ (in_or_app _ _ _ (or_introl Hp))). cbn in H3. rewrite zget_of_nat in H3.
          congruence.
        * exists (conv v t). split; [|split; auto]. rewrite <- zget_of_nat. rewrite H4.
          { rewrite zget_of_nat, (valsOf_nth _ _ _ t Ht), Ea. reflexivity. }
          rewrite map_app, in_app_iff. intros [Hp|Hp]; apply in_map_iff in Hp as (p & Hp & Hin).
          -- apply phsOf_in in Hin as (j & k & Hj & ->). cbn in Hp.
             assert (j = i) by lia. subst j. congruence.
          -- apply restOf_in in Hin as (j & Hj & ->). cbn in Hp.
             assert (nth_error args i <> None) by congruence. apply nth_error_Some in H.
             unfold zlen in *. lia.
      + apply nth_error_None in Ea. destruct HB as [_ _ _ _ _ _ Hr].
        destruct (Hty _ (Hr i t Ea Ht)) as (v & Hv & Hvt). exists v. split; [|auto].
        assert (Hp : In {| fromArg := highest args + (Z.of_nat i - zlen args); toArg := Z.of_nat i |}
                       (restOf (List.length (ins s) - List.length args) (zlen args) (highest args))).
        { apply restOf_in. exists (Z.of_nat i - zlen args).
          assert (nth_error (ins s) i <> None) by congruence. apply nth_error_Some in H.
          unfold zlen in *. split; [lia|]. f_equal; lia. }
        specialize (H3 _ (in_or_app _ _ _ (or_intror Hp))). cbn in H3. rewrite zget_of_nat in H3. congruence.
  Qed.

  Lemma assignAll_ok (cv : list (option (value ty pay))) : forall ts, List.length cv = List.length ts ->
    (forall i t, nth_error ts i = Some t -> exists v, nth_error cv i = Some (Some v) /\ vty v = t) ->
    exists vs, assignAll ty_eqb assignable cv ts = Ok vs /\ cv = map Some vs.
  Proof.
    induction cv as [|c cv IH]; intros [|t ts] Hl H; try discriminate.
    - exists []. auto.
    - destruct (H 0%nat t eq_refl) as (v & Hv & Ht). cbn in Hv. inversion Hv; subst c; clear Hv.
      destruct (IH ts) as (vs & H1 & ->); [cbn in Hl; lia|intros i; apply (H (S i))|].
      exists (v :: vs). cbn. rewrite Ht. replace (ty_eqb t t) with true by (symmetry; now apply Heq).
      cbn. rewrite H1. auto.
  Qed.

  Lemma callBound_ok (s d : sig) args call :
    bindable canConv s d args -> map vty call = ins d -> variadic s = false ->
    exists vs, callBound ty_eqb assignable elem mkslice call (boundOf s args) = (Ok vs, boundOf s args) /\
      map vty vs = ins s /\
      forall i t, nth_error (ins s) i = Some t -> nth_error vs i = routed conv args call i t.
  Proof.
    intros HB Hc Hv. destruct (fill_routed s d args call HB Hc) as (cv & H1 & H2 & H3).
    destruct (assignAll_ok cv (ins s)) as (vs & H4 & ->); [assumption| |].
    { intros i t Ht. destruct (H3 i t Ht) as (v & Ha & _ & Hb). eauto. }
    exists vs. unfold callBound. cbv zeta. rewrite H1. cbn [obind]. unfold reflectCall.
    cbn [b_src boundOf]. rewrite Hv, H4. split; [reflexivity|].
    assert (Hi : forall i t, nth_error (ins s) i = Some t -> exists v, nth_error vs i = Some v /\
                    routed conv args call i t = Some v /\ vty v = t).
    { intros i t Ht. destruct (H3 i t Ht) as (v & Ha & Hb & Hd). rewrite nth_error_map in Ha.
      exists v. destruct (nth_error vs i); inversion Ha; subst. auto. }
    split.
    - rewrite map_length in H2. revert H2 Hi. generalize (ins s) as ts. clear.
      intros ts H2 Hi. assert (Hi' : forall i t, nth_error ts i = Some t -> nth_error (map vty vs) i = Some t).
      { intros i t Ht. destruct (Hi i t Ht) as (v & H & _ & <-). rewrite nth_error_map, H. reflexivity. }
      clear Hi. revert vs H2 Hi'. induction ts as [|t ts IH]; intros [|v vs] Hl H; try discriminate; auto.
      cbn. f_equal; [specialize (H 0%nat t eq_refl); cbn in H; congruence|].
      apply IH; [cbn in Hl; lia|]. intros i; apply (H (S i)).
    - intros i t Ht. destruct (Hi i t Ht) as (v & -> & -> & _). reflexivity.
  Qed.
  (** A variadic src: its last parameter [st] receives a slice of one element,
      the value routed there, if that fits the element type. *)
  Lemma callBound_variadic (s d : sig) args call front st :
    bindable canConv s d args -> map vty call = ins d -> variadic s = true -> ins s = front ++ [st] ->
    exists vs v, List.length vs = List.length front /\ map vty vs = front /\
      (forall i t, nth_error front i = Some t -> nth_error vs i = routed conv args call i t) /\
      routed conv args call (List.length front) st = Some v /\ vty v = st /\
      callBound ty_eqb assignable elem mkslice call (boundOf s args) =
      (if ty_eqb st (elem st) || assignable st (elem st)
       then Ok (vs ++ [mkslice st [{| vty := elem st; vpay := vpay v |}]])
       else Panic "reflect: Call using wrong type", boundOf s args).
  Proof.
    intros HB Hc Hv Hs. destruct (fill_routed s d args call HB Hc) as (cv & H1 & H2 & H3).
    assert (Hl : List.length cv = S (List.length front)) by (rewrite H2, Hs, app_length; cbn; lia).
    assert (Hlast : nth_error (ins s) (List.length front) = Some st)
      by (rewrite Hs, nth_error_app2, Nat.sub_diag by lia; reflexivity).
    destruct (H3 _ _ Hlast) as (v & Ha & Hb & Hd).
    assert (Hcv : cv = firstn (List.length front) cv ++ [Some v]).
    { rewrite <- (firstn_skipn (List.length front) cv) at 1. f_equal.
      apply nth_error_split in Ha as (a & b & Ea & Eb). rewrite <- Eb in *. subst cv.
      rewrite skipn_app, Nat.sub_diag, skipn_all2 by lia. cbn.
      rewrite app_length in Hl. cbn in Hl. destruct b; [reflexivity|cbn in Hl; lia]. }
    assert (Hf : forall i t, nth_error front i = Some t -> exists x,
              nth_error (firstn (List.length front) cv) i = Some (Some x) /\ routed conv args call i t = Some x /\ vty x = t).
    { intros i t Ht. assert (i < List.length front)%nat by (apply nth_error_Some; congruence).
      destruct (H3 i t) as (x & Hx & Hr & Hy); [rewrite Hs, nth_error_app1 by assumption; exact Ht|].
      exists x. split; [|auto]. rewrite Hcv in Hx. rewrite nth_error_app1 in Hx by (rewrite firstn_length; lia). exact Hx. }
    assert (Hfl : List.length (firstn (List.length front) cv) = List.length front) by (rewrite firstn_length; lia).
    destruct (assignAll_ok (firstn (List.length front) cv) front) as (vs & H4 & H5); [assumption| |].
    { intros i t Ht. destruct (Hf i t Ht) as (x & Hx & _ & Hy). eauto. }
    rewrite H5, map_length in Hfl.
    assert (Hi : forall i t, nth_error front i = Some t -> exists x, nth_error vs i = Some x /\
                    routed conv args call i t = Some x /\ vty x = t).
    { intros i t Ht. destruct (Hf i t Ht) as (x & Hx & Hy). rewrite H5, nth_error_map in Hx.
      exists x. destruct (nth_error vs i); inversion Hx; subst. auto. }
    exists vs, v. split; [assumption|]. split; [|split; [|split; [assumption|split; [assumption|]]]].
    - clear - Hfl Hi. revert vs Hfl Hi. generalize (routed conv args call) as R. intros R vs Hfl Hi.
      assert (Hi' : forall i t, nth_error front i = Some t -> nth_error (map vty vs) i = Some t).
      { intros i t Ht. destruct (Hi i t Ht) as (x & H & _ & <-). rewrite nth_error_map, H. reflexivity. }
      clear Hi. revert vs Hfl Hi'. induction front as [|t ts IH]; intros [|x vs] Hl H; try discriminate; auto.
      cbn. f_equal; [specialize (H 0%nat t eq_refl); cbn in H; congruence|].
      apply IH; [cbn in Hl; lia|]. intros i; apply (H (S i)).
    - intros i t Ht. destruct (Hi i t Ht) as (x & -> & -> & _). reflexivity.
    - unfold callBound. cbv zeta. rewrite H1. cbn [obind]. unfold reflectCall. cbn [b_src boundOf].
      rewrite Hv. replace (List.length (ins s) - 1)%nat with (List.length front) by (rewrite Hs, app_length; cbn; lia).
      assert (Hk : skipn (List.length front) cv = [Some v]).
      { pose proof (firstn_skipn (List.length front) cv) as E. rewrite Hcv in E at 3. now apply app_inv_head in E. }
      rewrite Hk. replace (firstn (List.length front) (ins s)) with front
        by (rewrite Hs, firstn_app, Nat.sub_diag, firstn_all; cbn; now rewrite app_nil_r).
      rewrite H4. cbn [obind]. unfold typeAt. rewrite zget_of_nat, Hlast. cbn [of_opt obind List.length repeat assignAll assignTo].
      rewrite Hd. destruct (ty_eqb st (elem st)) eqn:Ee; cbn [orb obind].
      + apply Heq in Ee. rewrite <- Ee. destruct v as [t p]. cbn in *. now subst t.
      + destruct (assignable st (elem st)); reflexivity.
  Qed.
End Proofs.
