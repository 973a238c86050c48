(** Reads of any lengths up to the buffer size (C63). *)
From Verif Require Import Base Arr Exn Secrand_Model Secrand_Spec Secrand_Proofs.
Local Open Scope exn_scope.
Local Open Scope list_scope.
Local Open Scope Z_scope.

Lemma xorl_length a b : List.length (xorl a b) = Nat.min (List.length a) (List.length b).
Proof. unfold xorl. now rewrite map_length, combine_length. Qed.

Section Served.
  Context (ks : Z -> list Z -> list Z -> nat -> Z) (rd : Z) (nc : list Z) (bs : nat).
  Hypothesis Hrd : rd = 8 \/ rd = 12 \/ rd = 20.
  Hypothesis Hnc : zlen nc = 8.
  Hypothesis Hbs : (64 <= bs)%nat.
  Context (seed : list Z) (lv : nat -> nat).
  Hypothesis Hlv : forall i, (lv i <= bs)%nat.
  Local Notation pk := (pageKey ks rd nc seed).
  Local Notation pg := (page ks rd nc seed bs).
  Local Notation sv := (served pg lv).

  Lemma served_length i : List.length (sv i) = bs.
  Proof.
    induction i as [|i IH]; cbn [served]; [apply length_page|].
    rewrite xorl_length, app_length, repeat_length, skipn_length, length_page, IH.
    pose proof (Hlv i). lia.
  Qed.

  Lemma refilled_served i : refilled ks rd nc (pk i) (lv i) (skipn (lv i) (sv i)) = sv (S i).
  Proof.
    pose proof (Hlv i) as Hb. cbn [served]. set (o := lv i) in *. unfold refilled.
    set (f := ks rd nc (pk i)).
    transitivity (xorFrom f 32 (repeat 0 o ++ skipn o (sv i))).
    - rewrite xorFrom_app, xorFrom_zeros, repeat_length. reflexivity.
    - rewrite xorFrom_xorl, xorl_comm, app_length, repeat_length, skipn_length, served_length.
      replace (o + (bs - o))%nat with bs by lia. reflexivity.
  Qed.

  Lemma served_part i o k : (o + k <= bs)%nat -> firstn k (skipn o (sv i)) = map (servedByte pg bs lv) (seq (i * bs + o) k).
  Proof.
    intros H. apply nth_ext with (d := 0) (d' := 0).
    { rewrite firstn_length, skipn_length, served_length, map_length, seq_length. lia. }
    intros j Hj. rewrite firstn_length, skipn_length, served_length in Hj.
    assert (E1 : nth j (firstn k (skipn o (sv i))) 0 = nth (o + j) (sv i) 0).
    { transitivity (nth j (skipn o (sv i)) 0).
      - rewrite <- (firstn_skipn k (skipn o (sv i))) at 2. rewrite app_nth1; [reflexivity|rewrite firstn_length, skipn_length, served_length; lia].
      - rewrite <- (firstn_skipn o (sv i)) at 2. rewrite app_nth2 by (rewrite firstn_length, served_length; lia).
        f_equal. rewrite firstn_length, served_length. lia. }
    rewrite E1. rewrite (nth_indep (map _ _) 0 (servedByte pg bs lv 0)) by (rewrite map_length, seq_length; lia).
    rewrite map_nth, seq_nth by lia. unfold servedByte.
    replace (i * bs + o + j)%nat with ((o + j) + i * bs)%nat by lia.
    rewrite Nat.mod_add, Nat.mod_small, Nat.div_add, Nat.div_small by lia. reflexivity.
  Qed.

  (** Reading [b] when page [i] has been read up to [o]. *)
  Lemma read_served i o b : (o <= bs)%nat -> (List.length b <= bs)%nat ->
    ((bs < o + List.length b)%nat -> lv i = o) ->
    exists i' o', (o' <= bs)%nat /\ (i' * bs + o' = i * bs + o + List.length b)%nat /\
      Read ks 2 b (shaped rd nc (pk i) o (skipn o (sv i))) =
      (Ok (zlen b, map (servedByte pg bs lv) (seq (i * bs + o) (List.length b))),
       shaped rd nc (pk i') o' (skipn o' (sv i'))).
  Proof.
    intros Ho Hb Hc. set (d := List.length b) in *.
    assert (HL : List.length (skipn o (sv i)) = (bs - o)%nat) by (now rewrite skipn_length, served_length).
    assert (HK : zlen (pk i) = 32) by exact (zlen_pageKey ks rd nc bs Hbs seed i).
    destruct (le_lt_dec d (bs - o)) as [Lt|Lt].
    - exists i, (o + d)%nat. split; [lia|]. split; [lia|].
      rewrite read_buffered by (assumption || lia). fold d.
      rewrite skipn_skipn'. rewrite (Nat.add_comm d o). rewrite served_part by lia. reflexivity.
    - exists (S i), (d - (bs - o))%nat. split; [lia|]. split; [cbn [Nat.mul]; lia|].
      pose proof (refilled_served i) as HF. rewrite (Hc ltac:(lia)) in HF.
      rewrite read_reseed by (assumption || lia). fold d.
      rewrite HF, HL, <- (pageKey_S ks rd nc bs Hbs). do 3 f_equal.
      rewrite <- (firstn_all2 (n := bs - o) (skipn o (sv i))) by lia. rewrite served_part by lia.
      rewrite <- (skipn_O (sv (S i))), served_part by lia.
      rewrite Nat.add_0_r, <- map_app. replace (S i * bs)%nat with (i * bs + o + (bs - o))%nat by (cbn [Nat.mul]; lia).
      rewrite <- seq_app. do 2 f_equal. lia.
  Qed.

  Lemma reads_served : forall bl i o, (o <= bs)%nat -> Forall (fun b => (List.length b <= bs)%nat) bl ->
    (forall j, (i * bs + o <= S j * bs)%nat -> (S j * bs < i * bs + o + list_sum (map (@List.length Z) bl))%nat ->
       lv j = (lastCut (i * bs + o) (map (@List.length Z) bl) (S j * bs) - j * bs)%nat) ->
    exists l r', performs ks (map CRead bl) (shaped rd nc (pk i) o (skipn o (sv i))) = (Ok l, r') /\
      output l = map (servedByte pg bs lv) (seq (i * bs + o) (list_sum (map (@List.length Z) bl))).
  Proof.
    induction bl as [|b bl IH]; intros i o Ho HF Hcut; cbn [map performs].
    { exists [], (shaped rd nc (pk i) o (skipn o (sv i))). split; reflexivity. }
    inversion HF as [|x y Hb HF']; subst.
    cbn [map list_sum fold_right] in Hcut. fold (list_sum (map (@List.length Z) bl)) in Hcut.
    destruct (read_served i o b Ho Hb) as (i' & o' & Ho' & Hp & ER).
    { intros Hx. specialize (Hcut i). cbn [Nat.mul lastCut] in Hcut.
      destruct (Nat.leb_spec (i * bs + o + List.length b) (bs + i * bs)); lia. }
    destruct (IH i' o' Ho' HF') as (l & r' & E & EO).
    { intros j H1 H2. rewrite Hcut by lia. cbn [lastCut].
      destruct (Nat.leb_spec (i * bs + o + List.length b) (S j * bs)); [now rewrite Hp|lia]. }
    exists (ARead (zlen b) (map (servedByte pg bs lv) (seq (i * bs + o) (List.length b))) :: l), r'. split.
    - unfold xbind at 1. cbn [perform]. unfold xbind at 1. rewrite ER. unfold xret at 1. cbn [fst snd].
      unfold xbind. now rewrite E.
    - cbn [output list_sum fold_right]. rewrite EO, Hp. fold (list_sum (map (@List.length Z) bl)).
      now rewrite seq_app, map_app.
  Qed.
End Served.

Lemma lastCut_le lens : forall p q, (p <= q)%nat -> (p <= lastCut p lens q <= q)%nat.
Proof.
  induction lens as [|k lens IH]; intros p q H; cbn [lastCut]; [lia|].
  destruct (Nat.leb_spec (p + k) q) as [L|L]; [|lia]. specialize (IH (p + k)%nat q L). lia.
Qed.
Lemma cutIn_le bs lens i : (cutIn bs lens i <= bs)%nat.
Proof. unfold cutIn. pose proof (lastCut_le lens 0 (S i * bs) ltac:(lia)). cbn [Nat.mul] in *. lia. Qed.

Theorem all_reads ks rd nc bs seed bl r :
  rd = 8 \/ rd = 12 \/ rd = 20 -> zlen nc = 8 -> (64 <= bs)%nat -> zlen seed = 32 ->
  NewRNGCustom ks seed nc (Z.of_nat bs) rd = Ok r ->
  Forall (fun b => (List.length b <= bs)%nat) bl ->
  exists l r', performs ks (map CRead bl) r = (Ok l, r') /\
    output l = map (servedByte (page ks rd nc seed bs) bs (cutIn bs (map (@List.length Z) bl)))
      (seq 0 (list_sum (map (@List.length Z) bl))).
Proof.
  intros Hrd Hnc Hbs Hs E HF. rewrite (new_ok ks rd nc bs Hrd Hnc Hbs seed Hs) in E. injection E as <-.
  exact (reads_served ks rd nc bs Hrd Hnc Hbs seed (cutIn bs (map (@List.length Z) bl)) (cutIn_le bs _) bl 0 0
    ltac:(lia) HF (fun j _ _ => eq_refl)).
Qed.
