(** XSlice_Sorted_Spec: the programs do what they do on lists. *)
From Coq Require Import Permutation.
From Verif Require Import Base Arr Exn XSort_Spec Iter_Model Iter_Spec Algo_Model Algo_Spec Algo_Proofs Perm_Proofs Algo_Facts
  GoSlice GoSlice_Proofs XSlice_Model XSlice_Spec XSlice_Proofs XSlice_Facts XSlice_Props Algo_Props XSlice_Sorted_Spec.
Local Open Scope exn_scope.
Local Open Scope list_scope.
Local Open Scope Z_scope.

Section Proofs.
  Context {T : Type} (zero : T) (growth : Z -> Z -> Z) (lt : T -> T -> bool) (O : strict_weak_order lt).

  Lemma filter_all (f : T -> bool) l : (forall x, In x l -> f x = true) -> filter f l = l.
  Proof. induction l as [|x l IH]; cbn; intros H; [reflexivity|]. rewrite (H x) by auto. f_equal. apply IH. auto. Qed.
  Lemma filter_none (f : T -> bool) l : (forall x, In x l -> f x = false) -> filter f l = [].
  Proof. induction l as [|x l IH]; cbn; intros H; [reflexivity|]. rewrite (H x) by auto. apply IH. auto. Qed.

  Section At.
    Context (h : heap T) (s : slice) (V : valid h s).
    Lemma len0 : 0 <= len s.
    Proof. rewrite <- (elems_len h s V). apply zlen_nonneg. Qed.

    Lemma range_ok : onVar (Range s) (h, s) = (Ok (mkIt 0 s, mkIt (len s) s), (h, s)).
    Proof.
      pose proof len0. unfold onVar, Range, Begin, End, IteratorAt, xbind, xret. replace ((0 <? 0) || (len s <? 0)) with false by lia.
      replace ((len s <? 0) || (len s <? len s)) with false by lia. reflexivity.
    Qed.

    Let plug := plugW slice (store h s).
    Lemma its_lawful : lawful its (len s) plug (fun i => mkIt i s).
    Proof. apply lift_lawful. now apply slice_lawful. Qed.
    Lemma its_random : lawful_random its (len s) plug (fun i => mkIt i s).
    Proof. apply lift_random. apply slice_random. Qed.
    Lemma less_answers : Algo_Spec.answers (less lt) lt (fun _ _ w => w) plug.
    Proof. intros x y w l. reflexivity. Qed.
    Lemma plug_here : plug (tt, s) (elems h s) = (h, s).
    Proof. unfold plug, plugW. cbn [fst snd]. now rewrite store_elems. Qed.
    Lemma after_same (calls : list (T * T)) (w : unit * slice) : after (fun _ _ w => w) calls w = w.
    Proof. unfold after. induction calls; cbn; auto. Qed.

    Lemma upper a b v : elems h s = a ++ b -> (forall x, In x a -> lt v x = false) -> (forall x, In x b -> lt v x = true) ->
      UpperBoundAny its (less lt) (mkIt 0 s, mkIt (len s) s) v (h, s) = (Ok (mkIt (zlen a) s), (h, s)).
    Proof.
      intros E Ha Hb. pose proof (elems_len h s V) as HL.
      destruct (C09_upper_bound its (len s) plug (fun i => mkIt i s) (less lt) lt (fun _ _ w => w) its_lawful its_random less_answers
        (tt, s) [] a b [] v) as (calls & _ & H & _); [rewrite <- HL, E, app_nil_r; reflexivity|exact Ha|exact Hb|].
      cbn [app] in H. rewrite app_nil_r, <- E, after_same, plug_here, HL in H. cbn [Z.add] in H. exact H.
    Qed.
    Lemma lower a b v : elems h s = a ++ b -> (forall x, In x a -> lt x v = true) -> (forall x, In x b -> lt x v = false) ->
      LowerBoundAny its (less lt) (mkIt 0 s, mkIt (len s) s) v (h, s) = (Ok (mkIt (zlen a) s), (h, s)).
    Proof.
      intros E Ha Hb. pose proof (elems_len h s V) as HL.
      destruct (C08_lower_bound its (len s) plug (fun i => mkIt i s) (less lt) lt (fun _ _ w => w) its_lawful its_random less_answers
        (tt, s) [] a b [] v) as (calls & _ & H & _); [rewrite <- HL, E, app_nil_r; reflexivity|exact Ha|exact Hb|].
      cbn [app] in H. rewrite app_nil_r, <- E, after_same, plug_here, HL in H. cbn [Z.add] in H. exact H.
    Qed.

    Lemma add_ok v : sorted_by lt (elems h s) -> exists h' s',
      add zero growth lt v (h, s) = (Ok true, (h', s')) /\ valid h' s' /\
      elems h' s' = filter (fun x => negb (lt v x)) (elems h s) ++ v :: filter (lt v) (elems h s).
    Proof.
      intros HS. destruct (sorted_split_upper lt O v _ HS) as (a & b & E & Ha & Hb). pose proof len0 as H0.
      destruct (C20_insert zero growth h s a b v V E) as (r & h' & _ & V' & E' & _ & HI).
      assert (HB : 0 <= zlen a <= len s) by (rewrite <- (elems_len h s V), E, zlen_app; pose proof (zlen_nonneg a); pose proof (zlen_nonneg b); lia).
      assert (R : reach (T := T) s (mkIt (zlen a) s)).
      { eapply (reach_at s h h (zlen a)). unfold IteratorAt. replace ((zlen a <? 0) || (len s <? zlen a)) with false by lia. reflexivity. }
      destruct (HI _ R eq_refl) as [HI1 _]. exists h', r. split; [|split; [exact V'|]].
      - unfold add. unfold xbind at 1, xget. cbn [snd]. erewrite xbind_ok by apply range_ok.
        erewrite xbind_ok by (apply (upper a b); assumption). erewrite xbind_ok by exact HI1. reflexivity.
      - rewrite E', E, !filter_app. rewrite (filter_all _ a), (filter_none (lt v) a), (filter_none _ b), (filter_all _ b); auto.
        + now rewrite app_nil_r.
        + intros x Hx. now rewrite Hb.
        + intros x Hx. now rewrite Ha.
    Qed.

    (** Where the first element equivalent to [v] is. *)
    Lemma find_ok v : sorted_by lt (elems h s) -> exists a b,
      elems h s = a ++ b /\ (forall x, In x a -> equivb lt v x = false) /\
      find lt v (h, s) = (Ok (existsb (equivb lt v) (elems h s), mkIt (zlen a) s), (h, s)) /\
      (existsb (equivb lt v) (elems h s) = true -> exists x b', b = x :: b' /\ equivb lt v x = true).
    Proof.
      intros HS. destruct (sorted_split_lower lt O v _ HS) as (a & b & E & Ha & Hb). exists a, b. pose proof len0 as H0. pose proof (elems_len h s V) as HL.
      assert (HA : forall x, In x a -> equivb lt v x = false) by (intros x Hx; unfold equivb; rewrite (Ha x Hx); cbn; apply andb_false_r).
      assert (EX : existsb (equivb lt v) (elems h s) = existsb (equivb lt v) b).
      { rewrite E, existsb_app. replace (existsb (equivb lt v) a) with false; [reflexivity|]. symmetry. apply not_true_is_false. intros X.
        apply existsb_exists in X as (x & Hx & Ex). rewrite HA in Ex by assumption. discriminate. }
      split; [exact E|]. split; [exact HA|].
      unfold find. unfold xbind at 1, xget. cbn [snd]. erewrite xbind_ok by apply range_ok. erewrite xbind_ok by (apply (lower a b); assumption).
      cbn [snd].
      assert (EQ : Equal its (mkIt (zlen a) s) (mkIt (len s) s) (h, s) = (Ok (zlen a =? len s), (h, s))).
      { rewrite <- plug_here. apply (law_equal _ _ _ _ its_lawful); [exact HL| |lia]. rewrite <- HL, E, zlen_app. pose proof (zlen_nonneg a). pose proof (zlen_nonneg b). lia. }
      erewrite xbind_ok by exact EQ. destruct b as [|x b'].
      - replace (zlen a =? len s) with true by (rewrite <- HL, E, app_nil_r; symmetry; apply Z.eqb_refl). rewrite EX. split; [reflexivity|discriminate].
      - replace (zlen a =? len s) with false by (rewrite <- HL, E, zlen_app, zlen_cons; pose proof (zlen_nonneg b'); symmetry; apply Z.eqb_neq; lia).
        assert (EG : Get its (mkIt (zlen a) s) (h, s) = (Ok x, (h, s))).
        { rewrite <- plug_here. apply (law_get _ _ _ _ its_lawful); [exact HL|]. rewrite E. apply zget_mid. }
        erewrite xbind_ok by exact EG. unfold less. erewrite xbind_ok by reflexivity.
        assert (EB : existsb (equivb lt v) (elems h s) = negb (lt v x)).
        { rewrite EX. cbn [existsb]. assert (Hx : lt x v = false) by (apply Hb; now left). unfold equivb at 1. rewrite Hx. cbn [negb]. rewrite andb_true_r.
          destruct (lt v x) eqn:Ev; [cbn|reflexivity]. apply not_true_is_false. intros X. apply existsb_exists in X as (y & Hy & Ey).
          unfold equivb in Ey. apply andb_true_iff in Ey as [Ey _]. apply negb_true_iff in Ey.
          apply asc_sorted in HS. rewrite E in HS. apply asc_app in HS as (_ & HS & _). destruct HS as [HS _]. specialize (HS y Hy).
          (* y >= x > v *)
          pose proof (neg_trans lt O v y x Ey HS). congruence. }
        rewrite EB. split; [reflexivity|]. intros Ex. exists x, b'. split; [reflexivity|]. unfold equivb. rewrite Ex, (Hb x) by now left. reflexivity.
    Qed.
    Lemma has_ok v : sorted_by lt (elems h s) -> has lt v (h, s) = (Ok (existsb (equivb lt v) (elems h s)), (h, s)).
    Proof. intros HS. destruct (find_ok v HS) as (a & b & _ & _ & E & _). unfold has. erewrite xbind_ok by exact E. reflexivity. Qed.

    Lemma without_none v l : existsb (equivb lt v) l = false -> without lt v l = l.
    Proof. induction l as [|x l IH]; cbn; [reflexivity|]. destruct (equivb lt v x); [discriminate|]. intros H. now rewrite IH. Qed.
    Lemma without_at v a x b : (forall y, In y a -> equivb lt v y = false) -> equivb lt v x = true -> without lt v (a ++ x :: b) = a ++ b.
    Proof. intros Ha Hx. induction a as [|y a IH]; cbn; [now rewrite Hx|]. rewrite Ha by now left. f_equal. apply IH. intros z Hz. apply Ha. now right. Qed.

    Lemma remove_ok v : sorted_by lt (elems h s) -> exists h' s',
      remove lt v (h, s) = (Ok (existsb (equivb lt v) (elems h s)), (h', s')) /\ valid h' s' /\ elems h' s' = without lt v (elems h s).
    Proof.
      intros HS. destruct (find_ok v HS) as (a & b & E & Ha & EF & Hb). unfold remove. erewrite xbind_ok by exact EF.
      destruct (existsb (equivb lt v) (elems h s)) eqn:EX.
      - destruct (Hb eq_refl) as (x & b' & -> & Ex). destruct (C21_delete h s a x b' V E) as (r & h' & _ & V' & E' & ED).
        exists h', r. split; [|split; [exact V'|]].
        + erewrite xbind_ok by reflexivity. cbn [pos]. erewrite xbind_ok by exact ED. reflexivity.
        + rewrite E', E. now rewrite without_at.
      - exists h, s. split; [reflexivity|]. split; [exact V|]. now rewrite without_none.
    Qed.
  End At.

  Lemma sorted_add v l : sorted_by lt l -> sorted_by lt (filter (fun x => negb (lt v x)) l ++ v :: filter (lt v) l).
  Proof.
    intros HS. destruct (sorted_split_upper lt O v l HS) as (a & b & -> & Ha & Hb).
    rewrite !filter_app. rewrite (filter_all _ a), (filter_none (lt v) a), (filter_none _ b), (filter_all _ b); auto.
    - rewrite app_nil_r. cbn [app]. apply asc_sorted in HS. apply asc_sorted. apply asc_app in HS as (HA & HB & HAB). apply asc_app. split; [exact HA|]. split.
      + cbn [asc]. split; [|exact HB]. intros e He. destruct (lt e v) eqn:F; [|reflexivity]. pose proof (swo_trans lt O v e v (Hb e He) F). pose proof (swo_irrefl lt O v). congruence.
      + intros e e' He [<-|He']; auto.
    - intros x Hx. now rewrite Hb.
    - intros x Hx. now rewrite Ha.
  Qed.
  Lemma asc_without v l : asc lt l -> asc lt (without lt v l) /\ forall x, In x (without lt v l) -> In x l.
  Proof.
    induction l as [|y l IH]; cbn [asc without]; [auto|]. intros [Hy HL]. destruct (IH HL) as [IH1 IH2]. destruct (equivb lt v y).
    - split; [exact HL|]. intros; now right.
    - cbn [asc]. split; [split; auto|]. intros x [<-|Hx]; [now left|right; auto].
  Qed.

  Lemma calls_ok cs : forall h s, valid h s -> sorted_by lt (elems h s) ->
    let '(rs, l') := listCalls lt cs (elems h s) in
    exists h' s', runOps (carry_out zero growth lt) cs (h, s) = (map Ok rs, (h', s')) /\ valid h' s' /\ elems h' s' = l' /\ sorted_by lt l'.
  Proof.
    induction cs as [|c cs IH]; intros h s V HS; cbn [listCalls]; [exists h, s; auto|].
    assert (H1 : exists h' s', carry_out zero growth lt c (h, s) = (Ok (fst (listCall lt c (elems h s))), (h', s')) /\ valid h' s' /\
      elems h' s' = snd (listCall lt c (elems h s)) /\ sorted_by lt (snd (listCall lt c (elems h s)))).
    { destruct c as [v|v|v]; cbn [carry_out listCall fst snd].
      - destruct (add_ok h s V v HS) as (h' & s' & E & V' & E'). exists h', s'. repeat split; auto; try apply V'. now apply sorted_add.
      - destruct (remove_ok h s V v HS) as (h' & s' & E & V' & E'). exists h', s'. repeat split; auto; try apply V'.
        apply asc_sorted. apply asc_sorted in HS. apply (asc_without v _ HS).
      - exists h, s. repeat split; auto; try apply V. now apply has_ok. }
    destruct H1 as (h1 & s1 & E1 & V1 & EL1 & HS1). destruct (listCall lt c (elems h s)) as [r l1]. cbn [fst snd] in *.
    specialize (IH h1 s1 V1). rewrite EL1 in IH. specialize (IH HS1). destruct (listCalls lt cs l1) as [rs l2].
    destruct IH as (h2 & s2 & E2 & IH). exists h2, s2. cbn [runOps]. rewrite E1, E2. auto.
  Qed.
End Proofs.
