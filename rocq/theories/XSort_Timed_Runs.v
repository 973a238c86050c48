(** XSort_Timed_Model: the running time of whole sorts. *)
From Coq Require Import Permutation.
From Verif Require Import Base Arr Callback XSort_Model XSort_Spec XSort_CostSpec XSort_Cost XSort_StableCost XSort_Adaptive XSort_Stab XSort_Timed_Model XSort_Timed_Rel XSort_Timed_Proofs.
Local Open Scope cb_scope.
Local Open Scope Z_scope.

Lemma plain_ok {St} (r : cres unit * St) x : plain r = Ok x -> r = (CRet tt, x).
Proof. destruct r as [[[]| | |] y]; cbn; intros H; try discriminate. congruence. Qed.

Lemma SortT_same {E S} (data : list E) (less : comparatorW E S) s : exists t,
  SortT data less s = (fst (SortW data less s), (fst (snd (SortW data less s)), (snd (snd (SortW data less s)), t))).
Proof. unfold SortT, SortW, SortWWithin. apply cl_pdqsort. Qed.
Lemma StableT_same {E S} (data : list E) (less : comparatorW E S) s : exists t,
  StableT data less s = (fst (StableW data less s), (fst (snd (StableW data less s)), (snd (snd (StableW data less s)), t))).
Proof. unfold StableT, StableW, StableWWithin. apply cl_stable. Qed.

(** Runs with comparators that give the same answers take the same time. *)
Section Alike.
  Context {E S1 S2 : Type} (f g : E -> E -> bool).
  Variables (lt1 ge1 : comparatorW E S1) (lt2 ge2 : comparatorW E S2).
  Hypothesis L1 : forall d x y s, exists s', lt1 d x y s = (inl (f x y), (d, s')).
  Hypothesis G1 : forall d x y s, exists s', ge1 d x y s = (inl (g x y), (d, s')).
  Hypothesis L2 : forall d x y s, exists s', lt2 d x y s = (inl (f x y), (d, s')).
  Hypothesis G2 : forall d x y s, exists s', ge2 d x y s = (inl (g x y), (d, s')).

  Definition alike A (m1 : CM (@stT E S1) A) (m2 : CM (@stT E S2) A) : Prop := forall d s1 s2 t,
    let '(r1, (d1, (_, t1))) := m1 (d, (s1, t)) in let '(r2, (d2, (_, t2))) := m2 (d, (s2, t)) in r1 = r2 /\ d1 = d2 /\ t1 = t2.

  Lemma al_bind A B m1 m2 (f1 : A -> CM _ B) f2 : alike A m1 m2 -> (forall a, alike B (f1 a) (f2 a)) -> alike B (cbind m1 f1) (cbind m2 f2).
  Proof.
    intros Hm Hf d s1 s2 t. unfold cbind. specialize (Hm d s1 s2 t). destruct (m1 (d, (s1, t))) as [r1 [d1 [s1' t1]]], (m2 (d, (s2, t))) as [r2 [d2 [s2' t2]]].
    destruct Hm as (<- & <- & <-). destruct r1; auto. apply Hf.
  Qed.
  Lemma al_rd i : alike E (rd i) (rd i).
  Proof. intros d s1 s2 t. unfold rd. destruct (zget d i); auto. Qed.
  Lemma al_wr i x : alike unit (wr i x) (wr i x).
  Proof. intros d s1 s2 t. unfold wr. destruct (zset d i x); auto. Qed.
  Lemma al_tick : alike unit tick tick.
  Proof. intros d s1 s2 t. cbn. auto. Qed.
  Lemma al_swap i j : alike unit (swapT i j) (swapT i j).
  Proof. unfold swapT, swap. repeat (apply al_bind; [apply al_tick || apply al_rd || apply al_wr|intros ?]). apply al_wr. Qed.
  Lemma al_ltAt i j : alike bool (ltAtT lt1 i j) (ltAtT lt2 i j).
  Proof.
    unfold ltAtT, ltAt. repeat (apply al_bind; [apply al_tick || apply al_rd|intros ?]). intros d s1 s2 t. unfold askLt, beside. cbn [fst snd].
    destruct (L1 d a0 a1 s1) as (s1' & ->), (L2 d a0 a1 s2) as (s2' & ->). auto.
  Qed.
  Lemma al_geAt i j : alike bool (geAtT ge1 i j) (geAtT ge2 i j).
  Proof.
    unfold geAtT, geAt. repeat (apply al_bind; [apply al_tick || apply al_rd|intros ?]). intros d s1 s2 t. unfold askGe, beside. cbn [fst snd].
    destruct (G1 d a0 a1 s1) as (s1' & ->), (G2 d a0 a1 s2) as (s2' & ->). auto.
  Qed.
  Lemma al_pdqsort stack a b l : alike unit (pdqsortT lt1 ge1 stack a b l) (pdqsortT lt2 ge2 stack a b l).
  Proof.
    apply (rel_pdqsort lt1 ge1 lt2 ge2 alike); auto using al_bind, al_tick, al_swap, al_ltAt, al_geAt; intros; intros d s1 s2 t; cbn; auto.
  Qed.
End Alike.

Lemma per_comparison {E S} (lt ge : comparatorW E S) (cnt : S -> Z) stack a b l d s d' s' t :
  (forall d x y s, cnt (snd (snd (lt d x y s))) = cnt s + 1) -> (forall d x y s, cnt (snd (snd (ge d x y s))) = cnt s + 1) ->
  pdqsortT lt ge stack a b l (d, (s, 0)) = (CRet tt, (d', (s', t))) -> t <= 10 * (cnt s' - cnt s) + 4.
Proof.
  intros Hlt Hge H. pose proof (wk_pdqsort lt ge cnt Hlt Hge stack a b l (10 * cnt s - 0) d s 0 eq_refl) as HW. rewrite H in HW. lia.
Qed.

Lemma pdq_time {E S} (f g : E -> E -> bool) (lt ge : comparatorW E S) (data : list E) s :
  strict_weak_order f -> (forall x y, g x y = negb (f x y)) ->
  (forall d x y s, exists s', lt d x y s = (inl (f x y), (d, s'))) -> (forall d x y s, exists s', ge d x y s = (inl (g x y), (d, s'))) ->
  exists data' s' t, pdqsortT lt ge (Datatypes.S (List.length data)) 0 (zlen data) (bitsLen (zlen data)) (data, (s, 0)) = (CRet tt, (data', (s', t))) /\
    t <= 10000 * zlen data * (Z.log2 (zlen data) + 1) + 4.
Proof.
  intros HW Hg HL HG. destruct (Sort_cost f data HW) as (data' & k & E1 & Hk). apply plain_ok in E1.
  set (less := fun x y (c : Z) => (f x y, c + 1)) in *. unfold SortP in E1.
  destruct (SortT_same data (reads (always less)) 0) as (t & E2). rewrite E1 in E2. cbn [fst snd] in E2.
  pose proof (al_pdqsort f g lt ge (reads (always less)) (notLessW (reads (always less))) HL HG
    ltac:(intros d x y c; eexists; reflexivity) ltac:(intros d x y c; eexists; unfold notLessW; cbn; rewrite Hg; reflexivity)
    (Datatypes.S (List.length data)) 0 (zlen data) (bitsLen (zlen data)) data s 0 0) as HA.
  unfold SortT in E2. rewrite E2 in HA. destruct (pdqsortT lt ge _ _ _ _ _) as [r [d1 [s1 t1]]]. destruct HA as (-> & -> & ->).
  exists data', s1, t. split; [reflexivity|].
  assert (HT : t <= 10 * (k - 0) + 4).
  { refine (per_comparison (reads (always less)) (notLessW (reads (always less))) (fun c : Z => c) _ _ _ _ _ _ _ _ _ _ _ E2); reflexivity. }
  nia.
Qed.

Lemma stable_time {E S} (lt ge : comparatorW E S) stack n d s d' s' t : 0 <= n ->
  stableT lt ge stack n (d, (s, 0)) = (CRet tt, (d', (s', t))) -> t <= 70 * n * (Z.log2 n + 1) ^ 2 + 3.
Proof.
  intros Hn H. destruct (Z.eq_dec n 0) as [->|Hn0].
  - pose proof (wt_stable lt ge stack 0 0 0 ltac:(lia) ltac:(cbn; lia) d s) as HW. rewrite H in HW. cbn in HW. lia.
  - pose proof (Z.log2_spec n ltac:(lia)) as [_ HL]. pose proof (Z.log2_nonneg n) as H0. set (L := Z.log2 n) in *.
    pose proof (wt_stable lt ge stack (Z.to_nat (Z.succ L)) n 0 ltac:(lia) ltac:(rewrite Z2Nat.id; lia) d s) as HW. rewrite H in HW.
    rewrite Z2Nat.id in HW by lia. replace (Z.succ L) with (L + 1) in HW by lia. clearbody L. nia.
Qed.
