(** Go's built-in map, as an association list with an arbitrary boolean key
    equality [eqb] (the operator == of the key type; it need not be reflexive:
    NaN <> NaN).  The order of the list is not observable: iteration (range) is
    modelled by an arbitrary permutation of it.  Assigning to an existing key
    replaces the key too, as Go does for the key types in which == keys may
    differ (+0 and -0); in the others it makes no difference.  A nil map reads as
    an empty one. *)
From Coq Require Import Permutation.
From Verif Require Import Base.

Section GoMap.
  Context {K V : Type} (eqb : K -> K -> bool).

  Definition gomap : Type := list (K * V).

  (** v, ok := m[k] *)
  Fixpoint gget (m : gomap) (k : K) : option V :=
    match m with
    | [] => None
    | (k', v) :: m' => if eqb k' k then Some v else gget m' k
    end.

  (** m[k] = v *)
  Fixpoint gset (m : gomap) (k : K) (v : V) : gomap :=
    match m with
    | [] => [(k, v)]
    | (k', v') :: m' => if eqb k' k then (k, v) :: m' else (k', v') :: gset m' k v
    end.

  (** delete(m, k) *)
  Fixpoint gdel (m : gomap) (k : K) : gomap :=
    match m with
    | [] => []
    | (k', v') :: m' => if eqb k' k then gdel m' k else (k', v') :: gdel m' k
    end.

  (** len(m) *)
  Definition glen (m : gomap) : Z := zlen m.
End GoMap.
Arguments gomap : clear implicits.

(** [eqb] decides equality: key types without NaN. *)
Definition decides {K} (eqb : K -> K -> bool) : Prop := forall x y, eqb x y = true <-> x = y.

(** [eqb] is a partial equivalence: every Go key type. *)
Record partial_equiv {K} (eqb : K -> K -> bool) : Prop := {
  pe_sym : forall x y, eqb x y = true -> eqb y x = true;
  pe_trans : forall x y z, eqb x y = true -> eqb y z = true -> eqb x z = true }.

Record equiv {K} (eqb : K -> K -> bool) : Prop := {
  eq_pe : partial_equiv eqb;
  eq_refl_ : forall x, eqb x x = true }.

Lemma decides_equiv {K} (eqb : K -> K -> bool) : decides eqb -> equiv eqb.
Proof.
  intros H. split; [split|].
  - intros x y Hx. apply H. symmetry. now apply H.
  - intros x y z Hx Hy. apply H in Hx, Hy. apply H. congruence.
  - intros x. now apply H.
Qed.

Section Lemmas.
  Context {K V : Type} (eqb : K -> K -> bool) (PE : partial_equiv eqb).
  Notation gomap := (gomap K V).

  Lemma eqb_cong x y z : eqb x y = true -> eqb x z = eqb y z.
  Proof.
    intros H. destruct (eqb y z) eqn:E.
    - eapply (pe_trans _ PE); eauto.
    - destruct (eqb x z) eqn:E'; [|reflexivity].
      rewrite <- E. symmetry. eapply (pe_trans _ PE); [apply (pe_sym _ PE); eassumption|assumption].
  Qed.

  Lemma eqb_comm x y : eqb x y = eqb y x.
  Proof.
    destruct (eqb x y) eqn:E.
    - symmetry. now apply (pe_sym _ PE).
    - destruct (eqb y x) eqn:E'; [|reflexivity]. apply (pe_sym _ PE) in E'. congruence.
  Qed.

  Lemma gget_cong (m : gomap) k k' : eqb k k' = true -> gget eqb m k = gget eqb m k'.
  Proof.
    intros H. induction m as [|[k0 v0] m IH]; cbn; [reflexivity|].
    now rewrite !(eqb_comm k0), (eqb_cong _ _ k0 H), IH.
  Qed.

  Lemma gget_gset (m : gomap) k v k' :
    gget eqb (gset eqb m k v) k' = if eqb k k' then Some v else gget eqb m k'.
  Proof.
    induction m as [|[k0 v0] m IH]; cbn.
    - destruct (eqb k k'); reflexivity.
    - destruct (eqb k0 k) eqn:E; cbn.
      + rewrite (eqb_cong _ _ k' E). destruct (eqb k k'); reflexivity.
      + rewrite IH. destruct (eqb k0 k') eqn:E'; [|reflexivity].
        destruct (eqb k k') eqn:E''; [|reflexivity].
        exfalso. apply (pe_sym _ PE) in E''. pose proof (pe_trans _ PE _ _ _ E' E''). congruence.
  Qed.

  Lemma gget_gdel (m : gomap) k k' :
    gget eqb (gdel eqb m k) k' = if eqb k k' then None else gget eqb m k'.
  Proof.
    induction m as [|[k0 v0] m IH]; cbn.
    - destruct (eqb k k'); reflexivity.
    - destruct (eqb k0 k) eqn:E; cbn.
      + rewrite IH, (eqb_cong _ _ k' E). destruct (eqb k k'); reflexivity.
      + rewrite IH. destruct (eqb k0 k') eqn:E'; [|reflexivity].
        destruct (eqb k k') eqn:E''; [|reflexivity].
        exfalso. apply (pe_sym _ PE) in E''. pose proof (pe_trans _ PE _ _ _ E' E''). congruence.
  Qed.

  (** No two entries have equal keys. *)
  Fixpoint wfm (m : gomap) : Prop :=
    match m with
    | [] => True
    | (k, _) :: m' => gget eqb m' k = None /\ wfm m'
    end.

  Lemma wfm_gset (m : gomap) k v : wfm m -> wfm (gset eqb m k v).
  Proof.
    induction m as [|[k0 v0] m IH]; cbn; [auto|]. intros [H1 H2].
    destruct (eqb k0 k) eqn:E; cbn; [now rewrite <- (gget_cong _ _ _ E)|]. split; [|auto].
    rewrite gget_gset, (eqb_comm k k0), E. assumption.
  Qed.

  Lemma gget_gdel_none (m : gomap) k k' : gget eqb m k' = None -> gget eqb (gdel eqb m k) k' = None.
  Proof. intros H. rewrite gget_gdel, H. destruct (eqb k k'); reflexivity. Qed.

  Lemma wfm_gdel (m : gomap) k : wfm m -> wfm (gdel eqb m k).
  Proof.
    induction m as [|[k0 v0] m IH]; cbn; [auto|]. intros [H1 H2].
    destruct (eqb k0 k); cbn; auto using gget_gdel_none.
  Qed.

  Lemma gget_in (m : gomap) k v : gget eqb m k = Some v -> exists k', In (k', v) m /\ eqb k' k = true.
  Proof.
    induction m as [|[k0 v0] m IH]; cbn; [discriminate|]. destruct (eqb k0 k) eqn:E.
    - intros [= ->]. eauto.
    - intros H. destruct (IH H) as (k' & H1 & H2). eauto.
  Qed.

  Lemma gget_none_in (m : gomap) k : gget eqb m k = None -> forall k' v, In (k', v) m -> eqb k' k = false.
  Proof.
    induction m as [|[k0 v0] m IH]; cbn; [tauto|]. destruct (eqb k0 k) eqn:E; [discriminate|].
    intros H k' v [[= -> ->]|Hin]; eauto.
  Qed.

  Lemma gset_len (m : gomap) k v : glen (gset eqb m k v) =
    if match gget eqb m k with Some _ => true | None => false end then glen m else glen m + 1.
  Proof.
    unfold glen, zlen. induction m as [|[k0 v0] m IH]; cbn [gset gget]; [reflexivity|].
    destruct (eqb k0 k); cbn [List.length]; [reflexivity|].
    destruct (gget eqb m k); lia.
  Qed.

  Lemma gdel_none (m : gomap) k : gget eqb m k = None -> gdel eqb m k = m.
  Proof.
    induction m as [|[k0 v0] m IH]; cbn; [auto|]. destruct (eqb k0 k); [discriminate|].
    intros H. now rewrite IH.
  Qed.

  Lemma gset_new (m : gomap) k v : gget eqb m k = None -> gset eqb m k v = m ++ [(k, v)].
  Proof.
    induction m as [|[k0 v0] m IH]; cbn; [auto|]. destruct (eqb k0 k); [discriminate|].
    intros H. now rewrite IH.
  Qed.
End Lemmas.

Section Exact.
  Context {K V : Type} (eqb : K -> K -> bool) (D : decides eqb).
  Notation gomap := (gomap K V).

  Lemma eqb_refl_ x : eqb x x = true.
  Proof. now apply D. Qed.

  Lemma wfm_nodup (m : gomap) : wfm eqb m <-> NoDup (map fst m).
  Proof.
    induction m as [|[k v] m IH]; cbn; [split; [constructor|auto]|]. rewrite IH.
    split.
    - intros [H1 H2]. constructor; [|assumption]. intros Hin. apply in_map_iff in Hin as ([k' v'] & Hk & Hin).
      cbn in Hk; subst k'. pose proof (gget_none_in eqb m k H1 k v' Hin). rewrite eqb_refl_ in H. discriminate.
    - intros H. inversion H; subst. split; [|assumption]. destruct (gget eqb m k) eqn:E; [|reflexivity].
      apply gget_in in E as (k' & Hin & Hk). apply D in Hk; subst k'. exfalso. apply H2.
      apply in_map_iff. exists (k, v0). auto.
  Qed.

  Lemma gget_iff_in (m : gomap) : wfm eqb m -> forall k v, gget eqb m k = Some v <-> In (k, v) m.
  Proof.
    induction m as [|[k0 v0] m IH]; cbn; [split; [discriminate|tauto]|]. intros [H1 H2] k v.
    destruct (eqb k0 k) eqn:E.
    - apply D in E; subst k0. split.
      + intros [= ->]. auto.
      + intros [[= ->]|Hin]; [reflexivity|]. apply IH in Hin; auto. congruence.
    - rewrite IH by assumption. split; [auto|]. intros [[= -> ->]|]; auto.
      rewrite eqb_refl_ in E. discriminate.
  Qed.
End Exact.
