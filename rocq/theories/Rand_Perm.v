(** Proofs about Perm and Shuffle. *)
From Coq Require Import Permutation.
From Verif Require Import Base Arr Exn Rand_Model Rand_Spec Rand_Proofs.
Local Open Scope list_scope.
Local Open Scope Z_scope.

Lemma zget_mid {A} (a : list A) x b : zget (a ++ x :: b) (zlen a) = Some x.
Proof.
  unfold zget. rewrite (proj2 (Z.ltb_ge _ _)) by apply zlen_nonneg. unfold zlen. rewrite Nat2Z.id, nth_error_app2, Nat.sub_diag by lia. reflexivity.
Qed.
Lemma zget_split {A} (l : list A) j x : zget l j = Some x -> exists a b, l = a ++ x :: b /\ zlen a = j.
Proof.
  unfold zget. destruct (j <? 0) eqn:E; [discriminate|]. apply Z.ltb_ge in E. intros H.
  apply nth_error_split in H as (a & b & -> & HL). exists a, b. split; [reflexivity|]. unfold zlen. lia.
Qed.
Lemma upd_mid {A} (a : list A) x b y : upd (a ++ x :: b) (Z.to_nat (zlen a)) y = a ++ y :: b.
Proof. unfold zlen. rewrite Nat2Z.id. induction a; cbn; congruence. Qed.
Lemma zset_mid {A} (a : list A) x b y : zset (a ++ x :: b) (zlen a) y = Some (a ++ y :: b).
Proof.
  unfold zset. rewrite (proj2 (Z.leb_le _ _)) by apply zlen_nonneg.
  rewrite (proj2 (Z.ltb_lt _ _)) by (rewrite zlen_app, zlen_cons; pose proof (zlen_nonneg b); lia). cbn [andb]. now rewrite upd_mid.
Qed.

Lemma below_succ n : 0 <= n -> below (n + 1) = below n ++ [n].
Proof.
  intros H. unfold below. replace (Z.to_nat (n + 1)) with (S (Z.to_nat n)) by lia. rewrite seq_S, map_app. cbn. now rewrite Z2Nat.id.
Qed.

(** ** Perm *)

(** One round with draw [j], on the part of m that was written so far. *)
Inductive permStep (l : list Z) (j : Z) : list Z -> Prop :=
| ps_in a x b : l = a ++ x :: b -> zlen a = j -> permStep l j (a ++ zlen l :: b ++ [x])
| ps_end : zlen l = j -> permStep l j (l ++ [zlen l]).

Lemma permStep_total l j : 0 <= j < zlen l + 1 -> exists l', permStep l j l'.
Proof.
  intros H. destruct (Z.eq_dec j (zlen l)) as [->|N]; [eexists; now apply ps_end|].
  destruct (zget_some l j ltac:(lia)) as (x & Hx). apply zget_split in Hx as (a & b & -> & Ha). eexists. exact (ps_in _ _ a x b eq_refl Ha).
Qed.
Lemma split_unique {A} (a a' : list A) x x' b b' : a ++ x :: b = a' ++ x' :: b' -> zlen a = zlen a' -> a = a' /\ x = x' /\ b = b'.
Proof.
  intros E HL. unfold zlen in HL. assert (H : List.length a = List.length a') by lia. clear HL. revert a' H E. induction a as [|y a IH]; intros [|y' a'] H E; cbn in H; try discriminate.
  - cbn in E. injection E. auto.
  - cbn in E. injection E as -> E. injection H as H. destruct (IH a' H E) as (-> & -> & ->). auto.
Qed.
Lemma permStep_det l j l1 l2 : permStep l j l1 -> permStep l j l2 -> l1 = l2.
Proof.
  intros H1 H2. inversion H1 as [a x b E HA|HA]; inversion H2 as [a' x' b' E' HA'|HA'].
  - subst l. destruct (split_unique _ _ _ _ _ _ E') as (-> & -> & ->); [lia|]. reflexivity.
  - subst l. exfalso. rewrite zlen_app, zlen_cons in HA'. pose proof (zlen_nonneg b). lia.
  - subst l. exfalso. rewrite zlen_app, zlen_cons in HA. pose proof (zlen_nonneg b'). lia.
  - reflexivity.
Qed.
Lemma permStep_len l j l' : permStep l j l' -> zlen l' = zlen l + 1.
Proof. intros H. inversion H as [a x b E HA|HA]; subst l' ; try subst l; rewrite ?zlen_app, ?zlen_cons, ?zlen_app, ?zlen_cons, ?zlen_nil; lia. Qed.
Lemma permStep_perm l j l' : permStep l j l' -> Permutation l (below (zlen l)) -> Permutation l' (below (zlen l + 1)).
Proof.
  intros H HP. rewrite below_succ by apply zlen_nonneg. rewrite <- HP. destruct H as [a x b E HA|HA]; [|reflexivity].
  rewrite <- Permutation_middle. rewrite (Permutation_app_comm l [zlen l]). cbn [app]. constructor.
  rewrite E. apply Permutation_app_head. now rewrite Permutation_app_comm.
Qed.
(** The draw and the list before are determined by the list after. *)
Lemma in_below_lt l x : Permutation l (below (zlen l)) -> In x l -> 0 <= x < zlen l.
Proof. intros HP H. rewrite HP in H. now apply below_in in H. Qed.
Lemma not_twice {A} (a b a' b' : list A) (x : A) : ~ In x a -> ~ In x b -> a ++ x :: b = a' ++ x :: b' -> a = a' /\ b = b'.
Proof.
  revert a'. induction a as [|y a IH]; intros [|y' a'] Ha Hb E; cbn in E.
  - injection E. auto.
  - injection E as <- E. exfalso. apply Hb. rewrite E, in_app_iff. right. now left.
  - injection E as -> E. exfalso. apply Ha. now left.
  - injection E as -> E. destruct (IH a') as [-> ->]; auto. intros H. apply Ha. now right.
Qed.
Lemma permStep_inj l1 j1 l2 j2 l' : Permutation l1 (below (zlen l1)) -> Permutation l2 (below (zlen l2)) ->
  permStep l1 j1 l' -> permStep l2 j2 l' -> l1 = l2 /\ j1 = j2.
Proof.
  intros P1 P2 H1 H2. assert (HL : zlen l1 = zlen l2) by (apply permStep_len in H1, H2; lia).
  assert (N : forall l, Permutation l (below (zlen l)) -> ~ In (zlen l) l) by (intros l HP Hin; apply in_below_lt in Hin; [lia|exact HP]).
  pose proof (N _ P1) as N1. pose proof (N _ P2) as N2.
  inversion H1 as [a x b E HA E'|HA E']; inversion H2 as [c y d F HC F'|HC F']; subst l'.
  - rewrite <- HL in F'. symmetry in F'. apply not_twice in F' as [-> E2].
    + apply app_inj_tail in E2 as [-> ->]. split; [congruence|lia].
    + rewrite E in N1 at 2. rewrite in_app_iff in N1. tauto.
    + rewrite E in N1 at 2. rewrite in_app_iff in *. cbn in *. tauto.
  - exfalso. rewrite <- HL in F'. symmetry in F'. apply not_twice in F' as [-> E2].
    + destruct b; discriminate E2.
    + rewrite E in N1 at 2. rewrite in_app_iff in N1. tauto.
    + rewrite E in N1 at 2. rewrite in_app_iff in *. cbn in *. tauto.
  - exfalso. rewrite HL in F'. apply not_twice in F' as [-> E2].
    + destruct d; discriminate E2.
    + rewrite F in N2 at 2. rewrite in_app_iff in N2. tauto.
    + rewrite F in N2 at 2. rewrite in_app_iff in *. cbn in *. tauto.
  - apply app_inj_tail in F' as [-> _]. split; [reflexivity|lia].
Qed.
Lemma permStep_onto l' n : 0 <= n -> Permutation l' (below (n + 1)) ->
  exists l j, permStep l j l' /\ 0 <= j < n + 1 /\ zlen l = n /\ Permutation l (below n).
Proof.
  intros Hn HP. assert (HL : zlen l' = n + 1).
  { pose proof (below_len (n + 1) ltac:(lia)) as H. unfold zlen in *. now rewrite (Permutation_length HP). }
  assert (Hin : In n l') by (rewrite HP; apply below_in; lia). apply in_split in Hin as (a & b & ->).
  assert (HB : Permutation (a ++ b) (below n)).
  { rewrite below_succ in HP by exact Hn. apply Permutation_app_inv with (a := n) (l3 := below n) (l4 := []) in HP. now rewrite app_nil_r in HP. }
  rewrite zlen_app, zlen_cons in HL. pose proof (zlen_nonneg a). pose proof (zlen_nonneg b).
  destruct b as [|x b0] using rev_ind.
  - exists a, n. rewrite app_nil_r in HB. cbn [zlen List.length] in HL. rewrite zlen_nil in HL.
    split; [assert (n = zlen a) as -> by lia; now apply ps_end|]. split; [lia|]. split; [lia|exact HB].
  - clear IHb0. rewrite zlen_app, zlen_cons, zlen_nil in *. pose proof (zlen_nonneg b0).
    exists (a ++ x :: b0), (zlen a). assert (HZ : zlen (a ++ x :: b0) = n) by (rewrite zlen_app, zlen_cons; lia).
    split; [rewrite <- HZ; now apply ps_in|]. split; [lia|]. split; [exact HZ|]. rewrite <- HB. apply Permutation_app_head.
    rewrite Permutation_app_comm. reflexivity.
Qed.

Inductive permRun : list Z -> list Z -> list Z -> Prop :=
| pr_nil l : permRun [] l l
| pr_cons j js l l1 l2 : permStep l j l1 -> permRun js l1 l2 -> permRun (j :: js) l l2.

Lemma permRun_snoc js j l l2 : permRun (js ++ [j]) l l2 <-> exists l1, permRun js l l1 /\ permStep l1 j l2.
Proof.
  revert l. induction js as [|k js IH]; intros l; cbn [app].
  - split.
    + intros H. inversion H as [|? ? ? l1 ? H1 H2]; subst. inversion H2; subst. exists l. split; [constructor|exact H1].
    + intros (l1 & H1 & H2). inversion H1; subst. econstructor; [exact H2|constructor].
  - split.
    + intros H. inversion H as [|? ? ? l1 ? H1 H2]; subst. apply IH in H2 as (m & H2 & H3). exists m. split; [now apply pr_cons with l1|exact H3].
    + intros (l1 & H1 & H2). inversion H1 as [|? ? ? m ? H3 H4]; subst. apply pr_cons with m; [exact H3|]. apply IH. eauto.
Qed.
Lemma permRun_det js l l1 l2 : permRun js l l1 -> permRun js l l2 -> l1 = l2.
Proof.
  intros H. revert l2. induction H as [|j js l m l' H1 H2 IH]; intros l2 HR; inversion HR as [|? ? ? m' ? H3 H4]; subst; [reflexivity|].
  apply IH. now rewrite (permStep_det _ _ _ _ H1 H3).
Qed.

(** The bounds of the draws: i + 1, i + 2, ... *)
Definition boundsFrom (i : Z) (k : nat) : list Z := map (fun t => i + Z.of_nat t) (seq 1 k).
Lemma boundsFrom_cons i k : boundsFrom i (S k) = (i + 1) :: boundsFrom (i + 1) k.
Proof.
  unfold boundsFrom. cbn [seq map]. f_equal. rewrite <- seq_shift, map_map. apply map_ext. intros t. lia.
Qed.
Lemma boundsFrom_snoc i k : boundsFrom i (S k) = boundsFrom i k ++ [i + Z.of_nat (S k)].
Proof. unfold boundsFrom. rewrite seq_S, map_app. reflexivity. Qed.
Lemma boundsFrom_below n : boundsFrom 0 (Z.to_nat n) = map (fun i => i + 1) (below n).
Proof. unfold boundsFrom, below. rewrite <- seq_shift, !map_map. apply map_ext. intros t. lia. Qed.

Lemma permRun_perm js l l' k : draws (boundsFrom (zlen l) k) js -> permRun js l l' -> Permutation l (below (zlen l)) ->
  zlen l' = zlen l + Z.of_nat k /\ Permutation l' (below (zlen l')).
Proof.
  intros HD H. revert k HD. induction H as [l|j js l l1 l2 H1 H2 IH]; intros k HD HP.
  - inversion HD as [E|]. destruct k; [|discriminate]. split; [lia|exact HP].
  - destruct k; [inversion HD|]. rewrite boundsFrom_cons in HD. inversion HD; subst.
    pose proof (permStep_len _ _ _ H1) as HL. rewrite HL in IH. destruct (IH k) as [E1 E2]; [assumption|now apply permStep_perm with j|].
    split; [lia|exact E2].
Qed.

Lemma perm_unique n p : Permutation p (below (Z.of_nat n)) ->
  exists js, draws (boundsFrom 0 n) js /\ permRun js [] p /\ forall js', draws (boundsFrom 0 n) js' -> permRun js' [] p -> js' = js.
Proof.
  revert p. induction n as [|n IH]; intros p HP.
  - apply Permutation_sym, Permutation_nil in HP. subst p. exists []. split; [constructor|]. split; [constructor|].
    intros js' H. inversion H. reflexivity.
  - rewrite Nat2Z.inj_succ in HP. unfold Z.succ in HP. destruct (permStep_onto p (Z.of_nat n) ltac:(lia) HP) as (l & j & HS & Hj & HL & HPl).
    destruct (IH l HPl) as (js & HD & HR & HU). exists (js ++ [j]). rewrite boundsFrom_snoc. split; [|split].
    + apply Forall2_app; [exact HD|]. constructor; [lia|constructor].
    + apply permRun_snoc. eauto.
    + intros js' HD' HR'. unfold draws in HD'. apply Forall2_app_inv_l in HD' as (js1 & r & HD1 & Hr & ->).
      inversion Hr as [|? j' ? ? Hj' Hn]; subst. inversion Hn; subst. apply permRun_snoc in HR' as (l1 & HR1 & HS1).
      destruct (permRun_perm js1 [] l1 n HD1 HR1 (Permutation_refl _)) as [_ HP1].
      destruct (permStep_inj l1 j' l j p HP1) as [-> ->]; [rewrite HL; exact HPl|exact HS1|exact HS|]. now rewrite (HU js1 HD1 HR1).
Qed.

Lemma permLoop_step {st} (intn : Z -> X st Z) k l j s s1 : intn (zlen l + 1) s = (Ok j, s1) -> 0 <= j < zlen l + 1 ->
  exists l', permStep l j l' /\
    permLoop intn (S k) (zlen l) (l ++ repeat 0 (S k)) s = permLoop intn k (zlen l + 1) (l' ++ repeat 0 k) s1.
Proof.
  intros E Hj. cbn [permLoop]. unfold xbind at 1. rewrite E. unfold lift. destruct (Z.eq_dec j (zlen l)) as [->|N].
  - exists (l ++ [zlen l]). split; [now apply ps_end|]. cbn [repeat]. unfold xbind. rewrite zget_mid. cbn [of_opt]. rewrite zset_mid. cbn [of_opt].
    rewrite zset_mid. cbn [of_opt]. now rewrite <- app_assoc.
  - destruct (zget_some l j ltac:(lia)) as (x & Hx). apply zget_split in Hx as (a & b & -> & Ha).
    eexists. split; [exact (ps_in _ _ a x b eq_refl Ha)|]. cbn [repeat]. unfold xbind.
    rewrite <- (app_assoc a). cbn [app]. rewrite <- Ha at 1. rewrite zget_mid. cbn [of_opt].
    replace (a ++ x :: b ++ 0 :: repeat 0 k) with ((a ++ x :: b) ++ 0 :: repeat 0 k) by now rewrite <- app_assoc.
    rewrite zset_mid. cbn [of_opt]. rewrite <- (app_assoc a). cbn [app]. rewrite <- Ha at 1. rewrite zset_mid. cbn [of_opt].
    rewrite <- !app_assoc. cbn [app]. rewrite <- app_assoc. reflexivity.
Qed.

(** The loop runs the steps, one per draw. *)
Lemma permLoop_run {st} (intn : Z -> X st Z) k l s r s' :
  (forall b s j s', 0 < b -> intn b s = (Ok j, s') -> 0 <= j < b) ->
  permLoop intn k (zlen l) (l ++ repeat 0 k) s = (Ok r, s') ->
  exists js, draws (boundsFrom (zlen l) k) js /\ permRun js l r.
Proof.
  intros HI. revert l s. induction k as [|k IH]; intros l s H.
  - cbn in H. rewrite app_nil_r in H. injection H as -> ->. exists []. split; constructor.
  - destruct (intn (zlen l + 1) s) as [[j|m|] s1] eqn:E.
    + pose proof (zlen_nonneg l). pose proof (HI (zlen l + 1) _ _ _ ltac:(lia) E) as Hj.
      destruct (permLoop_step intn k l j s s1 E Hj) as (l' & HS & EL). rewrite EL in H. pose proof (permStep_len _ _ _ HS) as HL.
      rewrite <- HL in H. destruct (IH l' s1 H) as (js & HD & HR). exists (j :: js). rewrite boundsFrom_cons. split.
      * constructor; [exact Hj|]. now rewrite <- HL.
      * now apply pr_cons with l'.
    + cbn [permLoop] in H. unfold xbind at 1 in H. rewrite E in H. discriminate.
    + cbn [permLoop] in H. unfold xbind at 1 in H. rewrite E in H. discriminate.
Qed.
Lemma permLoop_no_panic {st} (intn : Z -> X st Z) k l s m s' :
  (forall b s j s', 0 < b -> intn b s = (Ok j, s') -> 0 <= j < b) -> (forall b s m s', 0 < b -> intn b s <> (Panic m, s')) ->
  permLoop intn k (zlen l) (l ++ repeat 0 k) s <> (Panic m, s').
Proof.
  intros HI HN. revert l s. induction k as [|k IH]; intros l s H; [discriminate H|]. pose proof (zlen_nonneg l).
  destruct (intn (zlen l + 1) s) as [[j|e|] s1] eqn:E.
  - pose proof (HI (zlen l + 1) _ _ _ ltac:(lia) E) as Hj. destruct (permLoop_step intn k l j s s1 E Hj) as (l' & HS & EL). rewrite EL in H.
    rewrite <- (permStep_len _ _ _ HS) in H. eapply IH; eauto.
  - eapply HN; eauto. lia.
  - cbn [permLoop] in H. unfold xbind at 1 in H. rewrite E in H. discriminate.
Qed.
Lemma permLoop_scripted k l js : draws (boundsFrom (zlen l) k) js ->
  exists r, permRun js l r /\ permLoop scripted k (zlen l) (l ++ repeat 0 k) (combine (boundsFrom (zlen l) k) js) = (Ok r, []).
Proof.
  revert l js. induction k as [|k IH]; intros l js HD.
  - inversion HD; subst. exists l. split; [constructor|]. cbn. now rewrite app_nil_r.
  - rewrite boundsFrom_cons in HD. inversion HD as [|? j ? js1 Hj HD1]; subst.
    rewrite boundsFrom_cons. cbn [combine].
    destruct (permLoop_step scripted k l j ((zlen l + 1, j) :: combine (boundsFrom (zlen l + 1) k) js1) (combine (boundsFrom (zlen l + 1) k) js1)) as (l' & HS & EL);
      [cbn [scripted]; now rewrite Z.eqb_refl|exact Hj|]. rewrite EL.
    pose proof (permStep_len _ _ _ HS) as HL. rewrite <- HL in *. destruct (IH l' js1 HD1) as (r & HR & E). exists r.
    split; [now apply pr_cons with l'|exact E].
Qed.

(** ** Shuffle *)
Section Exchange.
  Context {A : Type}.
  Implicit Types l a b : list A.

  Lemma zget_app1 l b i : 0 <= i < zlen l -> zget (l ++ b) i = zget l i.
  Proof. intros H. unfold zget. destruct (i <? 0); [reflexivity|]. apply nth_error_app1. unfold zlen in H. lia. Qed.
  Lemma upd_app1 l b n x : (n < List.length l)%nat -> upd (l ++ b) n x = upd l n x ++ b.
  Proof. revert n. induction l as [|y l IH]; intros n H; cbn in *; [lia|]. destruct n; cbn; [reflexivity|]. f_equal. apply IH. lia. Qed.

  Lemma exchange_app l b i j : 0 <= i < zlen l -> 0 <= j < zlen l -> exchange i j (l ++ b) = exchange i j l ++ b.
  Proof.
    intros Hi Hj. unfold exchange. rewrite !zget_app1 by assumption.
    destruct (zget_some l i Hi) as (x & ->), (zget_some l j Hj) as (y & ->). unfold zlen in *.
    rewrite upd_app1 by lia. rewrite upd_app1 by (rewrite length_upd; lia). reflexivity.
  Qed.
  Lemma exchange_len l i j : zlen (exchange i j l) = zlen l.
  Proof. unfold exchange. destruct (zget l i), (zget l j); rewrite ?zlen_upd; reflexivity. Qed.

  Lemma exchange_last a z j : 0 <= j < zlen a + 1 -> exists a' y,
    zget (a ++ [z]) j = Some y /\ exchange (zlen a) j (a ++ [z]) = a' ++ [y] /\ zlen a' = zlen a /\ Permutation (a ++ [z]) (a' ++ [y]).
  Proof.
    intros Hj. destruct (Z.eq_dec j (zlen a)) as [->|N].
    - exists a, z. rewrite zget_mid. split; [reflexivity|]. split; [|auto]. unfold exchange. rewrite zget_mid, !upd_mid. reflexivity.
    - destruct (zget_some a j ltac:(lia)) as (y & Hy). apply zget_split in Hy as (b & c & -> & Hb).
      exists (b ++ z :: c), y. split; [|split; [|split]].
      + rewrite <- app_assoc. cbn [app]. rewrite <- Hb. apply zget_mid.
      + unfold exchange. rewrite zget_mid. rewrite <- app_assoc at 1. cbn [app]. rewrite <- Hb at 1. rewrite zget_mid, upd_mid.
        rewrite <- !app_assoc. cbn [app]. rewrite <- Hb. now rewrite upd_mid.
      + rewrite !zlen_app, !zlen_cons. reflexivity.
      + rewrite <- !app_assoc. cbn [app]. apply Permutation_app_head. change (y :: c ++ [z]) with ([y] ++ c ++ [z]).
        change (z :: c ++ [y]) with ([z] ++ c ++ [y]). rewrite (Permutation_app_comm [y]), (Permutation_app_comm [z]), <- !app_assoc.
        apply Permutation_app_head. cbn. constructor.
  Qed.

End Exchange.

Lemma downTo2_succ k : downTo2 (Z.of_nat (S k) + 1) = (Z.of_nat (S k) + 1) :: downTo2 (Z.of_nat k + 1).
Proof.
  unfold downTo2, below. replace (Z.to_nat (Z.of_nat (S k) + 1 - 1)) with (S k) by lia. replace (Z.to_nat (Z.of_nat k + 1 - 1)) with k by lia.
  cbn [seq map]. f_equal. rewrite <- seq_shift, !map_map. apply map_ext. intros t. lia.
Qed.
Lemma downTo2_one : downTo2 1 = [].
Proof. reflexivity. Qed.
Lemma swaps_cons {D} (swap : Z -> Z -> D -> D) k j js d :
  swaps swap (Z.of_nat (S k) + 1) (j :: js) d = swaps swap (Z.of_nat k + 1) js (swap (Z.of_nat (S k)) j d).
Proof. unfold swaps. rewrite downTo2_succ. cbn [combine fold_left fst snd]. do 2 f_equal. lia. Qed.

Lemma swaps_exchange {A} k js (a : list A) b : zlen a = Z.of_nat k + 1 -> draws (downTo2 (Z.of_nat k + 1)) js ->
  swaps exchange (Z.of_nat k + 1) js (a ++ b) = swaps exchange (Z.of_nat k + 1) js a ++ b.
Proof.
  intros HL HD. assert (HG : Z.of_nat k + 1 <= zlen a) by lia. clear HL. revert js a HD HG. induction k as [|k IH]; intros js a HD HG.
  - change (Z.of_nat 0 + 1) with 1 in *. rewrite downTo2_one in HD. inversion HD. reflexivity.
  - rewrite downTo2_succ in HD. inversion HD as [|? j ? js1 Hj HD1]; subst. rewrite !swaps_cons.
    rewrite exchange_app by lia. apply IH; [exact HD1|]. rewrite exchange_len. lia.
Qed.

Lemma shuffle_unique {A} k (l p : list A) : zlen l = Z.of_nat k + 1 -> NoDup l -> Permutation p l ->
  exists js, draws (downTo2 (Z.of_nat k + 1)) js /\ swaps exchange (Z.of_nat k + 1) js l = p /\
    forall js', draws (downTo2 (Z.of_nat k + 1)) js' -> swaps exchange (Z.of_nat k + 1) js' l = p -> js' = js.
Proof.
  revert l p. induction k as [|k IH]; intros l p HL HN HP.
  - change (Z.of_nat 0 + 1) with 1 in *. destruct l as [|x [|y l]]; try (unfold zlen in HL; cbn in HL; lia).
    apply Permutation_sym, Permutation_length_1_inv in HP. subst p. exists []. rewrite downTo2_one. split; [constructor|]. split; [reflexivity|].
    intros js' H _. inversion H. reflexivity.
  - destruct l as [|z a _] using rev_ind; [unfold zlen in HL; cbn in HL; lia|].
    destruct p as [|w p' _] using rev_ind; [apply Permutation_nil in HP; destruct a; discriminate|].
    rewrite zlen_app, zlen_cons, zlen_nil in HL. assert (HLa : zlen a = Z.of_nat (S k)) by lia.
    assert (POS : forall j1 j2 y, zget (a ++ [z]) j1 = Some y -> zget (a ++ [z]) j2 = Some y -> j1 = j2).
    { intros j1 j2 y H1 H2. pose proof (zget_range _ _ _ H1). pose proof (zget_range _ _ _ H2). unfold zget in *.
      rewrite !(proj2 (Z.ltb_ge _ _)) in * by lia. assert (Z.to_nat j1 = Z.to_nat j2); [|lia].
      rewrite NoDup_nth_error in HN. apply HN; [apply nth_error_Some; congruence|congruence]. }
    assert (Hin : In w (a ++ [z])) by (rewrite <- HP, in_app_iff; right; now left).
    apply In_nth_error in Hin as (nj & Hnj). assert (Hj : zget (a ++ [z]) (Z.of_nat nj) = Some w).
    { unfold zget. rewrite (proj2 (Z.ltb_ge _ _)) by lia. now rewrite Nat2Z.id. }
    set (j := Z.of_nat nj) in *. pose proof (zget_range _ _ _ Hj) as Hr. assert (HZ : zlen (a ++ [z]) = zlen a + 1) by (rewrite zlen_app; reflexivity). rewrite HZ in Hr.
    destruct (exchange_last a z j ltac:(lia)) as (a' & y & Hy & EX & HLa' & HPa). assert (y = w) by congruence. subst y.
    assert (HPP : Permutation p' a').
    { apply Permutation_app_inv_r with (l := [w]). now rewrite HP, HPa. }
    assert (HNa : NoDup a').
    { apply (Permutation_NoDup HPa) in HN. apply NoDup_rev in HN. rewrite rev_app_distr in HN. cbn in HN. inversion HN; subst.
      rewrite <- (rev_involutive a'). now apply NoDup_rev. }
    destruct (IH a' p' ltac:(lia) HNa HPP) as (js & HD & HS & HU).
    exists (j :: js). rewrite downTo2_succ. split; [constructor; [lia|exact HD]|]. split.
    + rewrite swaps_cons, <- HLa, EX, swaps_exchange by (assumption || lia). now rewrite HS.
    + intros js' HD' HS'. inversion HD' as [|? j' ? js1 Hj' HD1]; subst. rewrite swaps_cons, <- HLa in HS'.
      destruct (exchange_last a z j' ltac:(lia)) as (a2 & y & Hy2 & EX2 & HL2 & HP2). rewrite EX2, swaps_exchange in HS' by (assumption || lia).
      apply app_inj_tail in HS' as [HS' ->]. assert (j' = j) by (eapply POS; eauto). subst j'.
      rewrite EX in EX2. apply app_inj_tail in EX2 as [<- _]. f_equal. now apply HU.
Qed.

Lemma swaps_perm {A} k js (l : list A) : Z.of_nat k + 1 <= zlen l -> draws (downTo2 (Z.of_nat k + 1)) js -> Permutation (swaps exchange (Z.of_nat k + 1) js l) l.
Proof.
  revert js l. induction k as [|k IH]; intros js l HL HD.
  - change (Z.of_nat 0 + 1) with 1 in *. rewrite downTo2_one in HD. inversion HD. reflexivity.
  - rewrite downTo2_succ in HD. inversion HD as [|? j ? js1 Hj HD1]; subst. rewrite swaps_cons.
    rewrite IH by (rewrite ?exchange_len; assumption || lia).
    (* split off the first k + 2 elements *)
    assert (HE : exists a z b, l = (a ++ [z]) ++ b /\ zlen a = Z.of_nat (S k)).
    { destruct (zget_some l (Z.of_nat (S k)) ltac:(lia)) as (z & Hz). apply zget_split in Hz as (a & b & -> & Ha).
      exists a, z, b. now rewrite <- app_assoc. }
    destruct HE as (a & z & b & -> & Ha). assert (HZ : zlen (a ++ [z]) = zlen a + 1) by (rewrite zlen_app; reflexivity).
    rewrite exchange_app by lia.
    destruct (exchange_last a z j ltac:(lia)) as (a' & y & _ & EX & _ & HP). rewrite <- Ha, EX. now rewrite HP.
Qed.

Section ShuffleRun.
  Context {S D : Type} (big small : Z -> X S Z) (swap : Z -> Z -> D -> D).
  Notation loop := (shuffleLoop (fun b => onFst (big b)) (fun b => onFst (small b)) (fun i j => onSnd (swap i j))).
  Hypothesis Hbig : forall b s j s', 2 ^ 31 <= b -> big b s = (Ok j, s') -> 0 <= j < b.
  Hypothesis Hsmall : forall b s j s', 0 < b < 2 ^ 31 -> small b s = (Ok j, s') -> 0 <= j < b.

  Lemma pick_range i sd j sd' : 0 < i ->
    (if i >? 2 ^ 31 - 1 - 1 then onFst (D := D) (big (i + 1)) else onFst (small (i + 1))) sd = (Ok j, sd') -> 0 <= j < i + 1 /\ snd sd' = snd sd.
  Proof.
    intros Hi E. destruct (i >? 2 ^ 31 - 1 - 1) eqn:EG; [apply Z.gtb_lt in EG|rewrite Z.gtb_ltb, Z.ltb_ge in EG]; unfold onFst in E; injection E as E <-; (split; [|reflexivity]).
    - destruct (big (i + 1) (fst sd)) as [o s1] eqn:EB. cbn in E. subst o. apply Hbig in EB; [exact EB|]. lia.
    - destruct (small (i + 1) (fst sd)) as [o s1] eqn:EB. cbn in E. subst o. apply Hsmall in EB; [exact EB|]. lia.
  Qed.

  Lemma shuffleLoop_run k sd sd' : loop k (Z.of_nat k) sd = (Ok tt, sd') ->
    exists js, draws (downTo2 (Z.of_nat k + 1)) js /\ snd sd' = swaps swap (Z.of_nat k + 1) js (snd sd).
  Proof.
    revert sd. induction k as [|k IH]; intros sd H.
    - cbn in H. injection H as <-. exists []. split; [constructor|reflexivity].
    - cbn [shuffleLoop] in H. unfold xbind at 1 in H.
      destruct ((if Z.of_nat (Datatypes.S k) >? 2 ^ 31 - 1 - 1 then onFst (D := D) (big (Z.of_nat (Datatypes.S k) + 1)) else onFst (small (Z.of_nat (Datatypes.S k) + 1))) sd)
        as [[j|m|] sd1] eqn:E; try discriminate H.
      apply pick_range in E as [Hj ES]; [|lia]. unfold xbind at 1 in H. unfold onSnd at 1 in H.
      replace (Z.of_nat (Datatypes.S k) - 1) with (Z.of_nat k) in H by lia. apply IH in H as (js & HD & HS).
      exists (j :: js). rewrite downTo2_succ. split; [constructor; assumption|]. rewrite swaps_cons, HS. cbn [snd]. now rewrite ES.
  Qed.

  Hypothesis Nbig : forall b s m s', 2 ^ 31 <= b -> big b s <> (Panic m, s').
  Hypothesis Nsmall : forall b s m s', 0 < b < 2 ^ 31 -> small b s <> (Panic m, s').
  Lemma pick_no_panic i sd m sd' : 0 < i ->
    (if i >? 2 ^ 31 - 1 - 1 then onFst (D := D) (big (i + 1)) else onFst (small (i + 1))) sd <> (Panic m, sd').
  Proof.
    intros Hi E. destruct (i >? 2 ^ 31 - 1 - 1) eqn:EG; [apply Z.gtb_lt in EG|rewrite Z.gtb_ltb, Z.ltb_ge in EG]; unfold onFst in E; injection E as E <-.
    - destruct (big (i + 1) (fst sd)) as [o s1] eqn:EB. cbn in E. subst o. apply Nbig in EB; [exact EB|lia].
    - destruct (small (i + 1) (fst sd)) as [o s1] eqn:EB. cbn in E. subst o. apply Nsmall in EB; [exact EB|lia].
  Qed.
  Lemma shuffleLoop_no_panic k sd m sd' : loop k (Z.of_nat k) sd <> (Panic m, sd').
  Proof.
    revert sd. induction k as [|k IH]; intros sd H; [discriminate H|]. cbn [shuffleLoop] in H. unfold xbind at 1 in H.
    destruct ((if Z.of_nat (Datatypes.S k) >? 2 ^ 31 - 1 - 1 then onFst (D := D) (big (Z.of_nat (Datatypes.S k) + 1)) else onFst (small (Z.of_nat (Datatypes.S k) + 1))) sd)
        as [[j|e|] sd1] eqn:E; try discriminate H.
    - unfold xbind at 1 in H. unfold onSnd at 1 in H. replace (Z.of_nat (Datatypes.S k) - 1) with (Z.of_nat k) in H by lia. now apply IH in H.
    - apply pick_no_panic in E; [exact E|lia].
  Qed.
End ShuffleRun.

Lemma shuffle_scripted {D} (swap : Z -> Z -> D -> D) k js d : draws (downTo2 (Z.of_nat k + 1)) js ->
  shuffleLoop (fun b => onFst (scripted b)) (fun b => onFst (scripted b)) (fun i j => onSnd (swap i j)) k (Z.of_nat k)
    (combine (downTo2 (Z.of_nat k + 1)) js, d)
  = (Ok tt, ([], swaps swap (Z.of_nat k + 1) js d)).
Proof.
  revert js d. induction k as [|k IH]; intros js d HD.
  - inversion HD. reflexivity.
  - rewrite downTo2_succ in HD. inversion HD as [|? j ? js1 Hj HD1]; subst. rewrite downTo2_succ. cbn [combine]. cbn [shuffleLoop]. unfold xbind at 1.
    replace ((if Z.of_nat (S k) >? 2 ^ 31 - 1 - 1 then onFst (scripted (Z.of_nat (S k) + 1)) else onFst (scripted (Z.of_nat (S k) + 1))) ((Z.of_nat (S k) + 1, j) :: combine (downTo2 (Z.of_nat k + 1)) js1, d))
      with ((Ok j, (combine (downTo2 (Z.of_nat k + 1)) js1, d)) : outcome Z * (list (Z * Z) * D))
      by (destruct (_ >? _); unfold onFst; cbn [scripted fst snd]; now rewrite Z.eqb_refl).
    unfold xbind at 1. unfold onSnd at 1. cbn [fst snd]. replace (Z.of_nat (S k) - 1) with (Z.of_nat k) by lia.
    rewrite IH by exact HD1. now rewrite swaps_cons.
Qed.
