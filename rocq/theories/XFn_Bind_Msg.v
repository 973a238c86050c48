(** Proofs about the messages of Bind. *)
From Coq Require Import DecimalString DecimalZ DecimalFacts Decimal.
From Verif Require Import Base Arr Exn XFn_Bind_Model XFn_Bind_Spec XFn_Bind_Proofs.
Local Open Scope string_scope.
Local Open Scope list_scope.
Local Open Scope Z_scope.

Lemma str_assoc (x y z : string) : ((x ++ y) ++ z = x ++ (y ++ z))%string.
Proof. induction x; cbn; congruence. Qed.

Section Msg.
  Context {ty pay : Type} (ty_eqb : ty -> ty -> bool)
          (Heq : forall a b, ty_eqb a b = true <-> a = b).
  Variables (canConv : value ty pay -> ty -> bool) (conv : value ty pay -> ty -> value ty pay)
            (show : ty -> string) (showFn : sig ty -> string).

  Notation barg := (barg ty pay).
  Notation sig := (sig ty).
  Notation argLoop := (argLoop ty_eqb canConv conv show showFn).
  Notation Bind := (Bind ty_eqb canConv conv show showFn).
  Notation sameOuts := (sameOuts ty_eqb show showFn).
  Notation restLoop := (restLoop ty_eqb show showFn).
  Notation first_problem := (first_problem canConv show showFn ith).
  Notation unfit := (unfit canConv show showFn ith).
  Notation fits := (fits canConv).

  Lemma eqb_refl t : ty_eqb t t = true.
  Proof. now apply Heq. Qed.
  Lemma eqb_neq a b : a <> b -> ty_eqb a b = false.
  Proof. intros H. destruct (ty_eqb a b) eqn:E; [apply Heq in E; congruence|reflexivity]. Qed.

  Lemma fits_argok d a t : fits d a t -> argok canConv d a t.
  Proof.
    destruct a as [k|v|]; cbn; auto. intros H. split; [|assumption].
    apply zget_range in H. lia.
  Qed.

  Lemma zget_mid {A} (l1 l2 : list A) a : zget (l1 ++ a :: l2) (zlen l1) = Some a.
  Proof. unfold zlen. rewrite zget_of_nat, nth_error_app2, Nat.sub_diag by lia. reflexivity. Qed.
  Lemma zlen_cons {A} (a : A) l : zlen (a :: l) = zlen l + 1.
  Proof. unfold zlen. cbn. lia. Qed.
  Lemma zlen_nonneg {A} (l : list A) : 0 <= zlen l.
  Proof. unfold zlen. lia. Qed.
  Lemma Forall2_length {A B} (R : A -> B -> Prop) l l' : Forall2 R l l' -> List.length l = List.length l'.
  Proof. induction 1; cbn; congruence. Qed.
  Lemma Forall2_zlen {A B} (R : A -> B -> Prop) l l' : Forall2 R l l' -> zlen l = zlen l'.
  Proof. intros H. unfold zlen. now rewrite (Forall2_length _ _ _ H). Qed.

  Lemma highest_pos (l : list barg) : 0 <= highest l.
  Proof. clear - l. induction l as [|[]]; cbn; lia. Qed.

  (** *** Outputs *)
  Lemma sameOuts_same s d l : forall i, sameOuts s d i l l = Ok tt.
  Proof. induction l; intros i; cbn; [reflexivity|]. now rewrite eqb_refl. Qed.

  Lemma sameOuts_differ s d same : forall i a b more more', a <> b ->
    sameOuts s d i (same ++ a :: more) (same ++ b :: more') =
    Panic ("incompatible output: " ++ ith (i + zlen same + 1) ++ " output of src [" ++ showFn s ++
           "] is [" ++ show a ++ "] but " ++ ith (i + zlen same + 1) ++ " output of dest [" ++ showFn d ++
           "] is [" ++ show b ++ "]").
  Proof.
    induction same as [|x same IH]; intros i a b more more' H; cbn [app XFn_Bind_Model.sameOuts].
    - rewrite eqb_neq by assumption. change (zlen (@nil ty)) with 0. now rewrite Z.add_0_r.
    - rewrite eqb_refl, IH by assumption. rewrite zlen_cons.
      replace (i + 1 + zlen same + 1) with (i + (zlen same + 1) + 1) by lia. reflexivity.
  Qed.

  (** *** Arguments *)
  Lemma argLoop_app s d good : forall rest i vals phs di,
    argLoop s d (good ++ rest) i vals phs di =
    obind (argLoop s d good i vals phs di)
      (fun r => argLoop s d rest (i + zlen good) (fst (fst r)) (snd (fst r)) (snd r)).
  Proof.
    induction good as [|a good IH]; intros rest i vals phs di.
    - cbn. change (zlen (@nil barg)) with 0. now rewrite Z.add_0_r.
    - rewrite zlen_cons. replace (i + (zlen good + 1)) with (i + 1 + zlen good) by lia.
      destruct a as [k|v|]; cbn [app XFn_Bind_Model.argLoop]; [| |reflexivity].
      + destruct (_ || _); [reflexivity|]. destruct (typeAt (ins s) i); cbn [obind]; try reflexivity.
        destruct (typeAt (ins d) (k - 1)); cbn [obind]; try reflexivity.
        destruct (negb _); [reflexivity|]. apply IH.
      + destruct (typeAt (ins s) i); cbn [obind]; try reflexivity.
        destruct (negb _); [reflexivity|]. destruct (of_opt _ _); cbn [obind]; try reflexivity. apply IH.
  Qed.

  Lemma good_args s d good ts more : ins s = ts ++ more -> Forall2 (fits d) good ts ->
    argLoop s d good 0 (repeat None (List.length (ins s))) [] 0 =
    Ok (valsOf conv (ins s) good, phsOf 0 good, highest good).
  Proof.
    intros Hs HF. pose proof (Forall2_length _ _ _ HF) as HL.
    destruct (argLoop_ok ty_eqb Heq canConv conv show showFn s d good [] (ins s) [] [] 0) as [E|]; auto; try lia.
    - rewrite Hs, app_length. lia.
    - intros j a t Ha Ht. apply fits_argok.
      rewrite Hs, nth_error_app1 in Ht by (rewrite <- HL; apply nth_error_Some; congruence).
      clear - HF Ha Ht. revert j Ha Ht. induction HF as [|x y l l' Hxy HF IH]; intros [|j] Ha Ht; cbn in *; try discriminate.
      + congruence.
      + eauto.
    - cbn [app] in E. change (zlen (@nil ty)) with 0 in E. rewrite valsOf_nil in E. rewrite E.
      rewrite Z.max_r; [reflexivity|]. apply highest_pos.
  Qed.

  Lemma highest_fits d good ts : Forall2 (fits d) good ts -> highest good <= zlen (ins d).
  Proof.
    induction 1 as [|a t l l' H HF IH]; cbn; [apply zlen_nonneg|].
    destruct a as [k|v|]; cbn in H; try lia. apply zget_range in H. lia.
  Qed.

  Lemma unfit_panics s d n t a text more vals phs di :
    unfit s d (n + 1) t a text -> zget (ins s) n = Some t ->
    argLoop s d (a :: more) n vals phs di = Panic text.
  Proof.
    intros H Ht. destruct H as [k Hk|k b Hb Hbt|v Hv|]; cbn [XFn_Bind_Model.argLoop].
    - replace ((k - 1 <? 0) || (zlen (ins d) <=? k - 1)) with true by lia.
      unfold PlaceholderString. rewrite !str_assoc. reflexivity.
    - pose proof (zget_range _ _ _ Hb).
      replace ((k - 1 <? 0) || (zlen (ins d) <=? k - 1)) with false by lia.
      unfold typeAt. rewrite Ht, Hb. cbn [of_opt obind]. rewrite eqb_neq by congruence.
      unfold PlaceholderString. rewrite !str_assoc. reflexivity.
    - unfold typeAt. rewrite Ht. cbn [of_opt obind]. rewrite Hv. reflexivity.
    - reflexivity.
  Qed.

  (** *** Remaining parameters *)
  Lemma missing_names s srcIn lost : forall got i sb,
    ins s = got ++ lost -> i = zlen got -> srcIn = zlen (ins s) ->
    missingNames show s srcIn (List.length lost) i sb = Ok (sb ++ String.concat ", " (map show lost))%string.
  Proof.
    assert (ANil : forall x, (x ++ "" = x)%string) by (induction x; cbn; congruence).
    induction lost as [|t lost IH]; intros got i sb Hs Hi Hn; cbn [List.length missingNames map].
    - cbn. now rewrite ANil.
    - unfold typeAt. rewrite Hs, Hi, zget_mid. cbn [of_opt obind].
      assert (Hz : zlen (ins s) = zlen got + zlen lost + 1) by (rewrite Hs, zlen_app, zlen_cons; lia).
      rewrite (IH (got ++ [t])).
      + f_equal. destruct lost as [|t' lost].
        * change (zlen (@nil ty)) with 0 in Hz. replace (zlen got <? srcIn - 1) with false by lia.
          cbn. now rewrite ANil.
        * rewrite zlen_cons in Hz. pose proof (zlen_nonneg lost).
          replace (zlen got <? srcIn - 1) with true by lia.
          cbn [map String.concat]. now rewrite !str_assoc.
      + now rewrite <- app_assoc.
      + rewrite zlen_app. reflexivity.
      + assumption.
  Qed.

  Lemma restLoop_differ s d same : forall i di phs n0 d0 a b more more',
    ins s = n0 ++ same ++ a :: more -> ins d = d0 ++ same ++ b :: more' ->
    i = zlen n0 -> di = zlen d0 -> a <> b ->
    restLoop s d (List.length (same ++ a :: more)) i phs di =
    Panic ("type mismatch: src [" ++ showFn s ++ "] " ++ ith (i + zlen same + 1) ++ " input is [" ++ show a ++
           "] but provided [" ++ show b ++ "] via " ++ ith (di + zlen same + 1) ++
           " dest input [" ++ showFn d ++ "]").
  Proof.
    induction same as [|x same IH]; intros i di phs n0 d0 a b more more' Hs Hd Hi Hdi Hne;
      cbn [app List.length XFn_Bind_Model.restLoop]; unfold typeAt.
    - cbn [app] in Hs, Hd. rewrite Hs, Hi, zget_mid. cbn [of_opt obind]. rewrite Hd, Hdi, zget_mid. cbn [of_opt obind].
      rewrite eqb_neq by assumption. change (zlen (@nil ty)) with 0. rewrite !Z.add_0_r. reflexivity.
    - cbn [app] in Hs, Hd. rewrite Hs, Hi, zget_mid. cbn [of_opt obind]. rewrite Hd, Hdi, zget_mid. cbn [of_opt obind].
      rewrite eqb_refl. cbn [negb].
      rewrite (IH _ _ _ (n0 ++ [x]) (d0 ++ [x]) a b more more'); auto.
      + rewrite zlen_cons.
        replace (zlen n0 + 1 + zlen same + 1) with (zlen n0 + (zlen same + 1) + 1) by lia.
        replace (zlen d0 + 1 + zlen same + 1) with (zlen d0 + (zlen same + 1) + 1) by lia. reflexivity.
      + now rewrite <- app_assoc.
      + now rewrite <- app_assoc.
      + rewrite zlen_app. reflexivity.
      + rewrite zlen_app. reflexivity.
  Qed.

  (** *** Both directions *)
  Lemma problem_panics src dest args m : first_problem src dest args m -> Bind src dest args = Panic m.
  Proof.
    intros H. destruct H; cbn [XFn_Bind_Model.Bind]; try reflexivity.
    - replace (zlen (outs s) =? zlen (outs d)) with false by (symmetry; now apply Z.eqb_neq). reflexivity.
    - replace (zlen (outs s) =? zlen (outs d)) with true
        by (symmetry; apply Z.eqb_eq; rewrite H, H0, !zlen_app, !zlen_cons; lia).
      cbn [negb]. rewrite H, H0, sameOuts_differ by assumption. reflexivity.
    - rewrite H, Z.eqb_refl, sameOuts_same. cbn [negb obind].
      replace (zlen (ins s) <? zlen args) with true by lia. reflexivity.
    - rewrite H, Z.eqb_refl, sameOuts_same. cbn [negb obind].
      replace (zlen (ins s) <? zlen (good ++ a :: more)) with false by lia.
      rewrite argLoop_app. rewrite (good_args s d good ts (t :: ts')) by assumption. cbn [obind fst snd].
      rewrite (unfit_panics _ _ _ t _ text); [reflexivity|assumption|].
      rewrite H1. cbn [Z.add]. rewrite (Forall2_zlen _ _ _ H2). apply zget_mid.
    - rewrite H, Z.eqb_refl, sameOuts_same. cbn [negb obind].
      pose proof (Forall2_zlen _ _ _ H1) as Hl.
      assert (HZ : zlen (ins s) = zlen ts + zlen served + zlen lost) by (rewrite H0, !zlen_app; lia).
      pose proof (zlen_nonneg served). pose proof (zlen_nonneg lost).
      assert (0 < zlen lost) by (destruct lost; [congruence|rewrite zlen_cons; pose proof (zlen_nonneg lost); lia]).
      replace (zlen (ins s) <? zlen args) with false by lia.
      rewrite (good_args s d args ts (served ++ lost)) by assumption. cbn [obind].
      replace (zlen (ins d) - highest args <? zlen (ins s) - zlen args) with true by lia.
      replace (zlen (ins s) - zlen args - (zlen (ins d) - highest args)) with (zlen lost) by lia.
      replace (Z.to_nat (zlen lost)) with (List.length lost) by (unfold zlen; lia).
      rewrite (missing_names s (zlen (ins s)) lost (ts ++ served)); [reflexivity| | |reflexivity].
      + now rewrite <- app_assoc.
      + rewrite zlen_app. lia.
    - rewrite H, Z.eqb_refl, sameOuts_same. cbn [negb obind].
      pose proof (Forall2_zlen _ _ _ H1) as Hl.
      assert (HZ : zlen (ins s) = zlen ts + zlen same + 1 + zlen more) by (rewrite H0, !zlen_app, zlen_cons; lia).
      assert (HD : zlen (ins d) = zlen ds + zlen same + 1 + zlen more') by (rewrite H2, !zlen_app, zlen_cons; lia).
      pose proof (zlen_nonneg same). pose proof (zlen_nonneg more).
      replace (zlen (ins s) <? zlen args) with false by lia.
      rewrite (good_args s d args ts (same ++ a :: more)) by assumption. cbn [obind].
      replace (zlen (ins d) - highest args <? zlen (ins s) - zlen args) with false by lia.
      replace (Z.to_nat (zlen (ins s) - zlen args)) with (List.length (same ++ a :: more))
        by (rewrite app_length; cbn [List.length]; unfold zlen in *; lia).
      rewrite (restLoop_differ s d same (zlen args) (highest args) _ ts ds a b more more'); auto.
  Qed.

  Lemma fits_or_unfit s d n t a : fits d a t \/ exists text, unfit s d n t a text.
  Proof.
    destruct a as [k|v|].
    - destruct (zget (ins d) (k - 1)) as [b|] eqn:E.
      + destruct (ty_eqb b t) eqn:Et.
        * left. apply Heq in Et. subst b. exact E.
        * right. eexists. eapply U_type; [exact E|]. intros ->. rewrite eqb_refl in Et. discriminate.
      + right. eexists. apply U_range. intros Hk. destruct (zget_some (ins d) (k - 1)) as [x Hx]; [lia|congruence].
    - destruct (canConv v t) eqn:E; [left; exact E|right; eexists; now apply U_value].
    - right. eexists. apply U_nil.
  Qed.

  Lemma split_args s d args : forall n ts0, zlen args <= zlen ts0 ->
    (exists ts more, ts0 = ts ++ more /\ Forall2 (fits d) args ts) \/
    (exists good a rest ts t ts' text, args = good ++ a :: rest /\ ts0 = ts ++ t :: ts' /\
       Forall2 (fits d) good ts /\ unfit s d (n + zlen good + 1) t a text).
  Proof.
    induction args as [|a args IH]; intros n ts0 Hl.
    - left. exists [], ts0. split; [reflexivity|constructor].
    - destruct ts0 as [|t ts0]; [rewrite zlen_cons in Hl; pose proof (zlen_nonneg args); change (zlen (@nil ty)) with 0 in Hl; lia|].
      rewrite !zlen_cons in Hl.
      destruct (fits_or_unfit s d (n + 1) t a) as [Hf|[text Hu]].
      + destruct (IH (n + 1) ts0 ltac:(lia)) as [(ts & more & -> & HF)|(good & a' & rest & ts & t' & ts' & text & -> & -> & HF & Hu)].
        * left. exists (t :: ts), more. split; [reflexivity|]. now constructor.
        * right. exists (a :: good), a', rest, (t :: ts), t', ts', text. split; [reflexivity|]. split; [reflexivity|].
          split; [now constructor|]. rewrite zlen_cons. replace (n + (zlen good + 1) + 1) with (n + 1 + zlen good + 1) by lia.
          assumption.
      + right. exists [], a, args, [], t, ts0, text. split; [reflexivity|]. split; [reflexivity|]. split; [constructor|].
        change (zlen (@nil barg)) with 0. now rewrite Z.add_0_r.
  Qed.

  Lemma split_types (l : list ty) : forall l', zlen l <= zlen l' ->
    (exists more, l' = l ++ more) \/
    (exists same a more b more', l = same ++ a :: more /\ l' = same ++ b :: more' /\ a <> b /\ zlen more <= zlen more').
  Proof.
    induction l as [|x l IH]; intros l' Hl; [left; now exists l'|].
    destruct l' as [|y l']; [rewrite zlen_cons in Hl; pose proof (zlen_nonneg l); change (zlen (@nil ty)) with 0 in Hl; lia|].
    rewrite !zlen_cons in Hl. destruct (ty_eqb x y) eqn:E.
    - apply Heq in E. subst y. destruct (IH l' ltac:(lia)) as [(more & ->)|(same & a & more & b & more' & -> & -> & H1 & H2)].
      + left. now exists more.
      + right. exists (x :: same), a, more, b, more'. auto.
    - right. exists [], x, l, y, l'. split; [reflexivity|]. split; [reflexivity|]. split; [|lia].
      intros ->. rewrite eqb_refl in E. discriminate.
  Qed.

  Lemma problem_or_bindable src dest args :
    (exists m, first_problem src dest args m) \/ (exists b, Bind src dest args = Ok b).
  Proof.
    destruct src as [|t|s]; [left; eexists; apply FP_nil|left; eexists; apply FP_src|].
    destruct dest as [t|d]; [left; eexists; apply FP_dest|].
    destruct (Z.eq_dec (zlen (outs s)) (zlen (outs d))) as [Ho|Ho]; [|left; eexists; now apply FP_nout].
    destruct (split_types (outs s) (outs d)) as [(more & E)|(same & a & more & b & more' & E1 & E2 & H1 & H2)]; [lia| |].
    2:{ left. eexists. eapply FP_out; eauto. rewrite E1, E2, !zlen_app, !zlen_cons in Ho. lia. }
    assert (outs s = outs d) as HO.
    { rewrite E in Ho. rewrite zlen_app in Ho. destruct more; [rewrite app_nil_r in E; congruence|].
      rewrite zlen_cons in Ho. pose proof (zlen_nonneg more). lia. }
    destruct (Z.lt_ge_cases (zlen (ins s)) (zlen args)) as [Hm|Hm]; [left; eexists; now apply FP_many|].
    destruct (split_args s d args 0 (ins s) Hm)
      as [(ts & rest & Es & HF)|(good & a & rest & ts & t & ts' & text & -> & E1 & HF & Hu)].
    2:{ left. exists text. eapply FP_arg; eauto. }
    pose proof (Forall2_zlen _ _ _ HF) as Hl. pose proof (highest_fits d args ts HF) as Hh.
    pose proof (highest_pos args) as Hh0.
    set (have := skipn (Z.to_nat (highest args)) (ins d)).
    assert (Hd : ins d = firstn (Z.to_nat (highest args)) (ins d) ++ have) by (symmetry; apply firstn_skipn).
    assert (Hfl : zlen (firstn (Z.to_nat (highest args)) (ins d)) = highest args).
    { unfold zlen in *. rewrite firstn_length. lia. }
    assert (Hhl : zlen have = zlen (ins d) - highest args).
    { rewrite Hd at 1. rewrite zlen_app. lia. }
    destruct (Z.lt_ge_cases (zlen have) (zlen rest)) as [Hf|Hf].
    - left. eexists. eapply (FP_few _ _ _ _ s d args ts (firstn (List.length have) rest) (skipn (List.length have) rest)); auto.
      + now rewrite firstn_skipn.
      + unfold zlen in *. rewrite firstn_length. lia.
      + intros EL. apply (f_equal (@List.length ty)) in EL. rewrite skipn_length in EL. unfold zlen in *. cbn in EL. lia.
    - destruct (split_types rest have Hf) as [(more2 & E2)|(same & a & more2 & b & more2' & E1 & E2 & H1 & H2)].
      + right. eexists. apply Bind_ok; [exact Heq|]. constructor.
        * assumption.
        * assumption.
        * intros i v t Ha Ht. clear - HF Ha Ht Es. revert i Ha Ht. rewrite Es. clear Es.
          induction HF as [|x y l l' Hxy HF IH]; intros [|i] Ha Ht; cbn in *; try discriminate; [|eauto].
          inversion Ha; inversion Ht; subst. exact Hxy.
        * intros Hin. clear - HF Hin. induction HF as [|x y l l' Hxy HF IH]; [destruct Hin|].
          destruct Hin as [->|Hin]; [exact Hxy|auto].
        * intros k Hin. clear - HF Hin. induction HF as [|x y l l' Hxy HF IH]; [destruct Hin|].
          destruct Hin as [->|Hin]; [|auto]. cbn in Hxy. apply zget_range in Hxy. lia.
        * intros i k t Ha Ht. clear - HF Ha Ht Es. revert i Ha Ht. rewrite Es. clear Es.
          induction HF as [|x y l l' Hxy HF IH]; intros [|i] Ha Ht; cbn in *; try discriminate; [|eauto].
          inversion Ha; inversion Ht; subst. exact Hxy.
        * intros i t Hi Ht. rewrite Es, nth_error_app2 in Ht by (unfold zlen in *; lia).
          rewrite zget_nth by (unfold zlen in *; lia). rewrite Hd, nth_error_app2 by (unfold zlen in *; lia).
          rewrite E2. rewrite nth_error_app1.
          -- rewrite <- Ht. f_equal. unfold zlen in *. lia.
          -- assert (nth_error rest (i - List.length ts) <> None) by congruence. apply nth_error_Some in H.
             unfold zlen in *. lia.
      + left. eexists. eapply (FP_rest _ _ _ _ s d args ts same a more2 _ b more2'); eauto.
        * rewrite Es, E1. reflexivity.
        * rewrite Hd, E2 at 1. reflexivity.
  Qed.

  Lemma Bind_message src dest args m : Bind src dest args = Panic m <-> first_problem src dest args m.
  Proof.
    split; [|apply problem_panics]. intros H.
    destruct (problem_or_bindable src dest args) as [[m' Hm]|[b Hb]]; [|congruence].
    pose proof (problem_panics _ _ _ _ Hm). congruence.
  Qed.
End Msg.
