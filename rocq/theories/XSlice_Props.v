(** Properties C17-C25 of iter and xslice. *)
From Verif Require Import Base Arr Exn GoSlice GoSlice_Proofs Iter_Model Iter_Spec Algo_Model Algo_Proofs
  XSlice_Model XSlice_Spec XSlice_Proofs XSlice_Facts.
From Verif Require XRing_Spec XRing_Model XRing_Proofs XRing_Props.
Local Open Scope string_scope.
Local Open Scope list_scope.
Local Open Scope Z_scope.

(** ** C17: reversed iterators *)

(** Over any lawful iterator, each of the four wrappers is lawful over the
    reversed list: position i of the reverse is position n - i of the base. *)
Theorem C17_reverse_lawful :
  forall {St It T C} (o : ops St It T) n (plug : C -> list T -> St) at_,
  lawful o n plug at_ -> lawful_prev o n plug at_ ->
  let plug' := fun w l => plug w (rev l) in
  let at' := fun i => Rev (at_ (n - i)) in
  (lawful (ConstReverse o) n plug' at' /\ lawful_prev (ConstReverse o) n plug' at') /\
  (lawful (Reverse o) n plug' at' /\ lawful_prev (Reverse o) n plug' at') /\
  (lawful (ConstReverseRandom o) n plug' at' /\ lawful_prev (ConstReverseRandom o) n plug' at') /\
  (lawful (ReverseRandom o) n plug' at' /\ lawful_prev (ReverseRandom o) n plug' at') /\
  (lawful_set o n plug at_ -> lawful_set (Reverse o) n plug' at' /\ lawful_set (ReverseRandom o) n plug' at') /\
  (lawful_random o n plug at_ ->
     lawful_random (ConstReverseRandom o) n plug' at' /\ lawful_random (ReverseRandom o) n plug' at').
Proof.
  intros St It T C o n plug at_ L LP plug' at'.
  assert (R1 : is_reverse o (ConstReverse o)) by repeat split.
  assert (R2 : is_reverse o (Reverse o)) by repeat split.
  assert (R3 : is_reverse o (ConstReverseRandom o)) by repeat split.
  assert (R4 : is_reverse o (ReverseRandom o)) by repeat split.
  repeat match goal with |- _ /\ _ => split end;
    try (eapply rev_lawful; eassumption); try (eapply rev_lawful_prev; eassumption).
  - intros LS. split; (eapply rev_lawful_set; [eassumption..|reflexivity]).
  - intros LR. split; (eapply rev_lawful_random; [eassumption|reflexivity..]).
Qed.

(** Slice iterators are lawful over the elements of the slice, so that the
    theorem above and those of Algo_Props apply to them. *)
Theorem C17_slice_iterators_lawful :
  forall {T} (h : heap T) (s : slice), valid h s ->
  let at_ := fun i => mkIt i s in
  exists plug : unit -> list T -> heap T,
    (forall l, zlen l = len s -> elems (plug tt l) s = l) /\ plug tt (elems h s) = h /\
    lawful sliceOps (len s) plug at_ /\ lawful_prev sliceOps (len s) plug at_ /\
    lawful_set sliceOps (len s) plug at_ /\ lawful_random sliceOps (len s) plug at_.
Proof.
  intros T h s V at_. exists (store h s). split; [intros; now apply elems_store|]. split; [now apply store_elems|].
  split; [now apply slice_lawful|]. split; [apply slice_prev|]. split; [now apply slice_set|apply slice_random].
Qed.

Theorem C17_slice_ranges :
  forall {T} (h : heap T) (s : slice), valid h s ->
  (exists b e, Range s h = (Ok (b, e), h) /\ walks sliceOps h b e (elems h s)) /\
  (exists b e, ReverseRange s h = (Ok (b, e), h) /\ walks (ReverseRandom sliceOps) h b e (rev (elems h s))) /\
  (forall i j, 0 <= i <= j -> j <= len s ->
     (exists b e, SubRange_ s i j h = (Ok (b, e), h) /\ walks sliceOps h b e (part i j (elems h s))) /\
     (exists b e, ReverseSubRange s i j h = (Ok (b, e), h) /\
        walks (ReverseRandom sliceOps) h b e (part i j (rev (elems h s))))).
Proof.
  intros T h s V. pose proof (elems_len h s V) as Hl. assert (H0 : 0 <= len s) by (rewrite <- Hl; apply zlen_nonneg).
  assert (HA : forall p, 0 <= p <= len s -> IteratorAt s p h = (Ok (mkIt p s), h)).
  { intros p Hp. unfold IteratorAt. replace ((p <? 0) || (len s <? p)) with false by lia. reflexivity. }
  assert (HR : RBegin s h = (Ok (Rev (mkIt (len s) s)), h)).
  { unfold RBegin. erewrite xbind_ok by (apply HA; lia). reflexivity. }
  split; [|split].
  - exists (mkIt 0 s), (mkIt (len s) s). split.
    + unfold Range. erewrite xbind_ok by (apply HA; lia). erewrite xbind_ok by (apply HA; lia). reflexivity.
    + rewrite <- (part_all (elems h s)) at 1. rewrite Hl. apply range_walk; [assumption|lia|lia].
  - exists (Rev (mkIt (len s) s)), (Rev (mkIt 0 s)). split.
    + unfold ReverseRange. erewrite xbind_ok by exact HR. unfold REnd, xbind, Begin. rewrite HA by lia. reflexivity.
    + rewrite <- (part_all (rev (elems h s))) at 1. rewrite zlen_rev, Hl.
      pose proof (reverse_walk h s 0 (len s) V) as W. rewrite Z.sub_0_r, Z.sub_diag in W. apply W; lia.
  - intros i j Hi Hj. split.
    + exists (mkIt i s), (mkIt j s). split; [|now apply range_walk].
      unfold SubRange_. erewrite xbind_ok by (apply HA; lia). erewrite xbind_ok by (apply HA; lia). reflexivity.
    + exists (Rev (mkIt (len s - i) s)), (Rev (mkIt (len s - j) s)). split; [|now apply reverse_walk].
      assert (HAdd : forall k, 0 <= k <= len s ->
        Add (ReverseRandom (@sliceOps T)) (Rev (mkIt (len s) s)) k h = (Ok (Rev (mkIt (len s - k) s)), h)).
      { intros k Hk. cbn [Add ReverseRandom sliceOps Base pos sl]. unfold xbind.
        replace ((len s + - k <? 0) || (len s <? len s + - k)) with false by lia. reflexivity. }
      unfold ReverseSubRange. erewrite xbind_ok by exact HR. erewrite xbind_ok by (apply HAdd; lia).
      erewrite xbind_ok by exact HR. erewrite xbind_ok by (apply HAdd; lia). reflexivity.
Qed.

(** ** C18: ReverseRandomRange *)

(** The property fails for every range of a slice that is not empty: walking
    from Begin to End of the result never arrives. *)
Theorem C18_reverse_random_range_refuted :
  forall {T} (h : heap T) (s : slice) i j, valid h s -> 0 <= i < j -> j <= len s ->
  let r := ReverseRandomRange (mkIt i s, mkIt j s) in
  forall l, ~ walks (ReverseRandom sliceOps) h (fst r) (snd r) l.
Proof.
  intros T h s i j V Hi Hj r l. subst r. cbn [ReverseRandomRange fst snd].
  replace i with (Z.of_nat (Z.to_nat i)) by lia. apply reverse_random_range_stuck; [assumption|lia|lia].
Qed.

(** What is left: the reverse of an empty range is empty. *)
Theorem C18_reverse_random_range_partial :
  forall {St It T C} (o : ops St It T) n (plug : C -> list T -> St) at_, lawful o n plug at_ ->
  forall w l i, zlen l = n -> 0 <= i <= n ->
  let r := ReverseRandomRange (at_ i, at_ i) in
  walks (ReverseRandom o) (plug w l) (fst r) (snd r) [].
Proof.
  intros St It T C o n plug at_ L w l i Hl Hi r. apply walks_end. cbn [r ReverseRandomRange fst snd Equal ReverseRandom Base].
  rewrite (law_equal _ _ _ _ L) by assumption. now rewrite Z.eqb_refl.
Qed.

(** ** C19: slice iterators are bounds-safe *)
Theorem C19_in_bounds :
  forall {T} (s : slice) (it : iterator), 0 <= len s -> @reach T s it -> sl it = s /\ 0 <= pos it <= len s.
Proof. intros T s it H R. exact (reach_bounds s it H R). Qed.

Theorem C19_exact_panics :
  forall {T} (h : heap T) (s : slice) (it : iterator), valid h s -> @reach T s it ->
  (* moves *)
  (pos it < len s -> Next (@sliceOps T) it h = (Ok (mkIt (pos it + 1) s), h)) /\
  (pos it = len s -> Next (@sliceOps T) it h = (Panic "increment out of bound", h)) /\
  (0 < pos it -> Prev (@sliceOps T) it h = (Ok (mkIt (pos it - 1) s), h)) /\
  (pos it = 0 -> Prev (@sliceOps T) it h = (Panic "decrement out of bound", h)) /\
  (forall k, 0 <= pos it + k <= len s -> Add (@sliceOps T) it k h = (Ok (mkIt (pos it + k) s), h)) /\
  (forall k, ~ 0 <= pos it + k <= len s -> Add (@sliceOps T) it k h = (Panic "offset out of bound", h)) /\
  (* Get and Set *)
  (pos it < len s -> exists p x q, elems h s = p ++ x :: q /\ zlen p = pos it /\
     Get sliceOps it h = (Ok x, h) /\
     forall v, exists h', Set_ sliceOps it v h = (Ok tt, h') /\ elems h' s = p ++ v :: q) /\
  (pos it = len s -> (exists msg, Get sliceOps it h = (Panic msg, h)) /\
     forall v, exists msg, Set_ sliceOps it v h = (Panic msg, h)) /\
  (* Equal *)
  (forall it', (arr (sl it'), off (sl it')) = (arr s, off s) ->
     Equal (@sliceOps T) it it' h = (Ok (pos it' =? pos it), h)) /\
  (forall it', (arr (sl it'), off (sl it')) <> (arr s, off s) ->
     Equal (@sliceOps T) it it' h = (Panic "compare iterator of different slices", h)).
Proof.
  intros T h s it V R. pose proof (elems_len h s V) as Hl.
  assert (H0 : 0 <= len s) by (rewrite <- Hl; apply zlen_nonneg).
  destruct (reach_bounds s it H0 R) as [Hs Hp].
  pose proof (get_spec h it) as HG. pose proof (set_spec h it) as HS. rewrite Hs in *. specialize (HG V Hp).
  repeat match goal with |- _ /\ _ => split end; intros; cbn [Next Prev Add Equal sliceOps]; rewrite ?Hs.
  - replace (pos it >=? len s) with false by lia. reflexivity.
  - replace (pos it >=? len s) with true by lia. reflexivity.
  - replace (pos it <=? 0) with false by lia. reflexivity.
  - replace (pos it <=? 0) with true by lia. reflexivity.
  - replace ((pos it + k <? 0) || (len s <? pos it + k)) with false by lia. reflexivity.
  - replace ((pos it + k <? 0) || (len s <? pos it + k)) with true by lia. reflexivity.
  - destruct (split_elem (elems h s) (pos it)) as (p & x & q & E & Hlp); [lia|]. exists p, x, q.
    split; [exact E|]. split; [exact Hlp|]. rewrite E, <- Hlp in HG. rewrite zget_mid in HG. split; [exact HG|].
    intros v. specialize (HS v V Hp). rewrite E, <- Hlp in HS.
    rewrite zset_ok in HS by (rewrite zlen_app, zlen_cons; pose proof (zlen_nonneg p); pose proof (zlen_nonneg q); lia).
    destruct HS as (h' & E1 & E2). exists h'. split; [exact E1|]. rewrite E2. unfold zlen. now rewrite Nat2Z.id, upd_app.
  - assert (N : zget (elems h s) (pos it) = None) by (apply zget_none; lia). rewrite N in HG. split; [eauto|].
    intros v. specialize (HS v V Hp). rewrite (proj2 (zset_none (elems h s) (pos it) v)) in HS by lia. eauto.
  - injection H as H1 H2. unfold ReferenceEqual. rewrite H1, H2, Nat.eqb_refl, Z.eqb_refl. reflexivity.
  - unfold ReferenceEqual. destruct ((arr s =? arr (sl it'))%nat && (off s =? off (sl it'))) eqn:E; [exfalso|reflexivity].
    apply andb_true_iff in E as [E1 E2]. apply Nat.eqb_eq in E1. apply Z.eqb_eq in E2. apply H. congruence.
Qed.

(** ** C20: Insert *)
Theorem C20_insert :
  forall {T} (zero : T) growth (h : heap T) (s : slice) p q v, valid h s -> elems h s = p ++ q ->
  exists r h', Insert zero growth s (zlen p) v h = (Ok r, h') /\ valid h' r /\ elems h' r = p ++ v :: q /\
    InsertAt_ zero growth (zlen p) v (h, s) = (Ok tt, (h', r)) /\
    (forall it, reach (T := T) s it -> pos it = zlen p ->
       Insert_ zero growth it v (h, s) = (Ok (mkIt (zlen p) r), (h', r)) /\ Get sliceOps (mkIt (zlen p) r) h' = (Ok v, h')).
Proof.
  intros T zero growth h s p q v V E. destruct (insert_spec zero growth h s p q v V E) as (r & h' & EI & V' & E' & _).
  exists r, h'. split; [exact EI|]. split; [exact V'|]. split; [exact E'|]. split; [now apply modify_ok|].
  intros it R Hp. destruct (reach_bounds (T := T) s it) as [Hs _]; [rewrite <- (elems_len h s V); apply zlen_nonneg|assumption|].
  split.
  - unfold Insert_, checkIterator. unfold xbind at 1, xbind at 1, xget at 1. cbn [snd]. rewrite Hs, Hp, refl_eq. cbn [negb].
    unfold xret at 1. unfold xbind. rewrite (modify_ok _ h s r h' EI). reflexivity.
  - rewrite get_spec.
    + cbn [sl pos]. rewrite E', zget_mid. reflexivity.
    + assumption.
    + cbn [sl pos]. rewrite <- (elems_len h' r V'), E', zlen_app, zlen_cons.
      pose proof (zlen_nonneg p). pose proof (zlen_nonneg q). lia.
Qed.

Theorem C20_insert_panics :
  forall {T} (zero : T) growth (h : heap T) (s : slice) i v, valid h s -> ~ (0 <= i <= len s) ->
  Insert zero growth s i v h = (Panic "insert out of bound", h) /\
  InsertAt_ zero growth i v (h, s) = (Panic "insert out of bound", (h, s)).
Proof.
  intros T zero growth h s i v V Hi. assert (H0 : 0 <= len s) by (rewrite <- (elems_len h s V); apply zlen_nonneg).
  pose proof (insert_panic zero growth h s i v H0 Hi) as E. split; [exact E|].
  unfold InsertAt_, modify, xbind, xget, onVar. cbn [snd fst]. now rewrite E.
Qed.

(** An iterator of another slice is refused. *)
Theorem C20_insert_foreign_iterator_panics :
  forall {T} (zero : T) growth (h : heap T) (s : slice) it v, (arr (sl it), off (sl it)) <> (arr s, off s) ->
  Insert_ zero growth it v (h, s) = (Panic "iterator does not belongs to this slice", (h, s)).
Proof.
  intros T zero growth h s it v Hne. unfold Insert_, checkIterator, xbind at 1, xbind at 1, xget at 1. cbn [snd].
  unfold ReferenceEqual. destruct ((arr s =? arr (sl it))%nat && (off s =? off (sl it))) eqn:E; [exfalso|reflexivity].
  apply andb_true_iff in E as [E1 E2]. apply Nat.eqb_eq in E1. apply Z.eqb_eq in E2. apply Hne. congruence.
Qed.

(** ** C21: Delete, UnorderedDelete, DeleteLast *)
Theorem C21_delete :
  forall {T} (h : heap T) (s : slice) p x q, valid h s -> elems h s = p ++ x :: q ->
  exists r h', Delete s (zlen p) h = (Ok r, h') /\ valid h' r /\ elems h' r = p ++ q /\
    Delete_ (zlen p) (h, s) = (Ok tt, (h', r)).
Proof.
  intros T h s p x q V E. destruct (delete_spec (fun _ n => n) h s p x q V E) as (r & h' & ED & V' & E' & _).
  exists r, h'. split; [exact ED|]. split; [exact V'|]. split; [exact E'|]. now apply modify_ok.
Qed.
Theorem C21_unordered_delete :
  forall {T} (h : heap T) (s : slice) p x q, valid h s -> elems h s = p ++ x :: q ->
  exists r h', UnorderedDelete s (zlen p) h = (Ok r, h') /\ valid h' r /\
    (q = [] -> elems h' r = p) /\ (forall m z, q = m ++ [z] -> elems h' r = p ++ z :: m) /\
    UnorderedDelete_ (zlen p) (h, s) = (Ok tt, (h', r)).
Proof.
  intros T h s p x q V E. destruct (unordered_spec (fun _ n => n) h s p x q V E) as (r & h' & ED & V' & E1 & E2 & _).
  exists r, h'. repeat split; try assumption; try apply V'. now apply modify_ok.
Qed.
Theorem C21_delete_last :
  forall {T} (h : heap T) (s : slice) p x, valid h s -> elems h s = p ++ [x] ->
  exists r, DeleteLast s h = (Ok r, h) /\ valid h r /\ elems h r = p /\
    DeleteLast_ (h, s) = (Ok tt, (h, r)).
Proof.
  intros T h s p x V E. destruct (deletelast_spec (fun _ n => n) h s p x V E) as (r & ED & V' & E').
  exists r. repeat split; try assumption; try apply V'. now apply modify_ok.
Qed.
Theorem C21_delete_panics :
  forall {T} (h : heap T) (s : slice) i, valid h s ->
  (~ 0 <= i < len s ->
     Delete s i h = (Panic "delete out of bound", h) /\ UnorderedDelete s i h = (Panic "delete out of bound", h) /\
     Delete_ i (h, s) = (Panic "delete out of bound", (h, s)) /\
     UnorderedDelete_ i (h, s) = (Panic "delete out of bound", (h, s))) /\
  (elems h s = [] -> DeleteLast s h = (Panic "delete from empty slice", h) /\
     DeleteLast_ (h, s) = (Panic "delete from empty slice", (h, s))).
Proof.
  intros T h s i V. pose proof (elems_len h s V) as Hl. assert (H0 : 0 <= len s) by (rewrite <- Hl; apply zlen_nonneg).
  split.
  - intros Hi. pose proof (delete_panic (fun _ n => n) h s i H0 Hi) as E1. pose proof (unordered_panic (fun _ n => n) h s i H0 Hi) as E2.
    repeat split; try assumption; unfold Delete_, UnorderedDelete_, modify, xbind, xget, onVar; cbn [fst snd]; now rewrite ?E1, ?E2.
  - intros E. rewrite E in Hl. assert (E' : DeleteLast s h = (Panic "delete from empty slice", h))
      by (unfold DeleteLast; rewrite <- Hl; reflexivity).
    split; [assumption|]. unfold DeleteLast_, modify, xbind, xget, onVar. cbn [fst snd]. now rewrite E'.
Qed.

(** ** C22: the memory that is written *)

(** Whatever the call returns, only cells in the window of [s] may change, and
    beyond the elements of [s] only the one at index len. *)
Theorem C22_insert_frame :
  forall {T} (zero : T) growth (h : heap T) (s : slice) i v r h', valid h s ->
  Insert zero growth s i v h = (r, h') ->
  writes_only h h' (fun a k => a = arr s /\ off s <= k < off s + cap s /\ k <= off s + len s).
Proof.
  intros T zero growth h s i v r h' V E. pose proof (elems_len h s V) as Hl.
  assert (H0 : 0 <= len s) by (rewrite <- Hl; apply zlen_nonneg).
  destruct (Z_le_gt_dec 0 i) as [G1|G1]; [destruct (Z_le_gt_dec i (len s)) as [G2|G2]|].
  - destruct (split_at (elems h s) i) as (p & q & Epq & Hp); [lia|]. rewrite <- Hp in E.
    destruct (insert_spec zero growth h s p q v V Epq) as (r1 & h1 & EI & _ & _ & HF). rewrite EI in E.
    injection E as <- <-. intros a k Hc HP. apply HF; [exact Hc|lia].
  - rewrite insert_panic in E by lia. injection E as <- <-. now intros a k Hc HP.
  - rewrite insert_panic in E by lia. injection E as <- <-. now intros a k Hc HP.
Qed.
Theorem C22_append_frame :
  forall {T} (zero : T) growth (h : heap T) (s : slice) vs r h' s', valid h s ->
  AppendMany_ zero growth vs (h, s) = (r, (h', s')) ->
  r = Ok tt /\ valid h' s' /\ elems h' s' = elems h s ++ vs /\
  writes_only h h' (fun a k => a = arr s /\ off s + len s <= k < off s + len s + zlen vs /\ k < off s + cap s).
Proof.
  intros T zero growth h s vs r h' s' V E. destruct (append_spec zero growth h s vs V) as (r1 & h1 & EA & V1 & E1 & HF).
  unfold AppendMany_ in E. rewrite (modify_ok _ h s r1 h1 EA) in E. injection E as <- <- <-. auto.
Qed.
Theorem C22_append_one_frame :
  forall {T} (zero : T) growth (h : heap T) (s : slice) v r h' s', valid h s ->
  Append_ zero growth v (h, s) = (r, (h', s')) ->
  r = Ok tt /\ valid h' s' /\ elems h' s' = elems h s ++ [v] /\
  writes_only h h' (fun a k => a = arr s /\ k = off s + len s /\ len s < cap s).
Proof.
  intros T zero growth h s v r h' s' V E. destruct (append_spec zero growth h s [v] V) as (r1 & h1 & EA & V1 & E1 & HF).
  unfold Append_ in E. rewrite (modify_ok _ h s r1 h1 EA) in E. injection E as <- <- <-.
  split; [reflexivity|]. split; [exact V1|]. split; [exact E1|]. intros a k Hc HP. apply HF; [exact Hc|].
  change (zlen [v]) with 1. lia.
Qed.
Theorem C22_delete_frame :
  forall {T} (h : heap T) (s : slice) i r h', valid h s ->
  Delete s i h = (r, h') \/ UnorderedDelete s i h = (r, h') \/ DeleteLast s h = (r, h') ->
  writes_only h h' (fun a k => a = arr s /\ off s <= k < off s + len s).
Proof.
  intros T h s i r h' V E. pose proof (elems_len h s V) as Hl.
  assert (H0 : 0 <= len s) by (rewrite <- Hl; apply zlen_nonneg).
  assert (D : ~ 0 <= i < len s \/ exists p x q, elems h s = p ++ x :: q /\ zlen p = i).
  { destruct (Z_le_gt_dec 0 i) as [G1|G1]; [|left; lia]. destruct (Z_lt_le_dec i (len s)) as [G2|G2]; [right|left; lia].
    apply split_elem. lia. }
  destruct E as [E|[E|E]].
  - destruct D as [N|(p & x & q & Epq & <-)].
    + rewrite (delete_panic (fun _ n => n)) in E by assumption. injection E as <- <-. now intros a k Hc HP.
    + destruct (delete_spec (fun _ n => n) h s p x q V Epq) as (r1 & h1 & ED & _ & _ & HF). rewrite ED in E.
      injection E as <- <-. exact HF.
  - destruct D as [N|(p & x & q & Epq & <-)].
    + rewrite (unordered_panic (fun _ n => n)) in E by assumption. injection E as <- <-. now intros a k Hc HP.
    + destruct (unordered_spec (fun _ n => n) h s p x q V Epq) as (r1 & h1 & ED & _ & _ & _ & HF). rewrite ED in E.
      injection E as <- <-. exact HF.
  - assert (DL : elems h s = [] \/ exists l y, elems h s = l ++ [y]).
    { destruct (elems h s) as [|y l _] using rev_ind; [now left|right; eauto]. }
    destruct DL as [El|(l & y & El)].
    + rewrite El in Hl. unfold DeleteLast in E. rewrite <- Hl in E. injection E as <- <-. now intros a k Hc HP.
    + destruct (deletelast_spec (fun _ n => n) h s l y V El) as (r1 & ED & _). rewrite ED in E. injection E as <- <-.
      now intros a k Hc HP.
Qed.

(** So a slice [q] whose cells are outside the window of [s] keeps its elements. *)
Theorem C22_other_slices_unchanged :
  forall {T} (zero : T) growth (h : heap T) (s q : slice) i v vs, valid h s -> valid h q ->
  arr q <> arr s \/ off q + len q <= off s \/ off s + cap s <= off q ->
  elems (snd (Insert zero growth s i v h)) q = elems h q /\
  elems (snd (Delete s i h)) q = elems h q /\ elems (snd (UnorderedDelete s i h)) q = elems h q /\
  elems (fst (snd (AppendMany_ zero growth vs (h, s)))) q = elems h q.
Proof.
  intros T zero growth h s q i v vs V Vq D.
  assert (K : forall h' P, writes_only h h' P -> (forall a k, P a k -> a = arr s /\ off s <= k < off s + cap s) ->
    elems h' q = elems h q).
  { intros h' P HF HP. apply elems_cells; [assumption|]. intros k Hk. destruct Vq as (Q0 & Q1 & d & Hd & Hdl). apply HF.
    - unfold cell. rewrite Hd. intros N. apply zget_none in N. lia.
    - intros C. apply HP in C. lia. }
  pose proof V as (V0 & V1 & _). split; [|split; [|split]].
  - destruct (Insert zero growth s i v h) as [r h'] eqn:E. eapply K; [eapply C22_insert_frame; [exact V|exact E]|]. cbv beta. intros a k C. split; [tauto|lia].
  - destruct (Delete s i h) as [r h'] eqn:E. eapply K; [eapply C22_delete_frame; [exact V|left; eassumption]|].
    cbv beta. intros a k C. split; [tauto|lia].
  - destruct (UnorderedDelete s i h) as [r h'] eqn:E.
    eapply K; [eapply C22_delete_frame; [exact V|right; left; eassumption]|]. cbv beta. intros a k C. split; [tauto|lia].
  - destruct (AppendMany_ zero growth vs (h, s)) as [r [h' s']] eqn:E.
    eapply K; [eapply C22_append_frame; [exact V|exact E]|]. cbv beta. pose proof (zlen_nonneg vs). intros a k C. split; [tauto|lia].
Qed.

(** ** C23: Copy and Reversed *)
Theorem C23_copy :
  forall {T} (zero : T) growth (h : heap T) (s : slice), goHeap h -> valid h s ->
  exists r h', Copy zero growth s h = (Ok r, h') /\ elems h' r = elems h s /\ elems h' s = elems h s /\ independent h h' r.
Proof.
  intros T zero growth h s G V. destruct (copy_spec zero growth h s G V) as (r & h' & E & _ & E' & I).
  exists r, h'. split; [exact E|]. split; [exact E'|]. split; [|exact I]. destruct I as [I _]. exact (I s V []).
Qed.
Theorem C23_reversed :
  forall {T} (zero : T) (h : heap T) (s : slice), goHeap h -> valid h s ->
  exists r h', Reversed zero s h = (Ok r, h') /\ elems h' r = rev (elems h s) /\ elems h' s = elems h s /\ independent h h' r.
Proof.
  intros T zero h s G V. destruct (reversed_spec zero (fun _ n => n) h s G V) as (r & h' & E & _ & E' & I).
  exists r, h'. split; [exact E|]. split; [exact E'|]. split; [|exact I]. destruct I as [I _]. exact (I s V []).
Qed.

(** ** C24: inserter iterators *)

(** iter.Append to a *Slice. *)
Theorem C24_append_slice :
  forall {T} (zero : T) growth (h : heap T) (s : slice) vs, valid h s ->
  let o := AppendIterator zero (fun _ : unit => Append_ zero growth) (fun _ _ => true) in
  exists h' s', writes o tt vs (h, s) = (Ok tt, (h', s')) /\ elems h' s' = elems h s ++ vs.
Proof.
  intros T zero growth h s vs V o. destruct (append_writes zero growth vs h s V) as (h' & s' & E & _ & E'). eauto.
Qed.

(** iter.Insert at any position of a *Slice; the inserter's own iterator ends
    up after what was written. *)
Theorem C24_insert_slice :
  forall {T} (zero : T) growth (h : heap T) (s : slice) p q vs, valid h s -> elems h s = p ++ q ->
  let o := InsertIterator zero (liftOps sliceOps slice) (Insert_ zero growth) in
  exists h' s', writes o tt vs ((h, s), mkIt (zlen p) s) = (Ok tt, ((h', s'), mkIt (zlen p + zlen vs) s')) /\
    elems h' s' = p ++ vs ++ q.
Proof.
  intros T zero growth h s p q vs V E o. destruct (insert_writes zero growth vs h s p q V E) as (h' & s' & E1 & _ & E2). eauto.
Qed.

(** iter.Append and iter.Prepend to a ring, after any history of the ring:
    from then on it behaves as the list with the values added. *)
Theorem C24_ring :
  forall {T} (zero : T) r0 l0, XRing_Props.constructed zero r0 l0 ->
  forall hist (vs : list T),
  let r := snd (runOps (XRing_Model.ringStep zero) hist r0) in
  let l := snd (runOps XRing_Spec.dequeStep hist l0) in
  let oA := AppendIterator zero (fun _ : unit => XRing_Model.Append zero) (fun _ _ => true) in
  let oP := PrependIterator zero (fun _ : unit => XRing_Model.Prepend zero) (fun _ _ => true) in
  (exists r', writes oA tt vs r = (Ok tt, r') /\
     forall later, fst (runOps (XRing_Model.ringStep zero) later r') = fst (runOps XRing_Spec.dequeStep later (l ++ vs))) /\
  (exists r', writes oP tt vs r = (Ok tt, r') /\
     forall later, fst (runOps (XRing_Model.ringStep zero) later r') = fst (runOps XRing_Spec.dequeStep later (rev vs ++ l))).
Proof.
  intros T zero r0 l0 Hc hist vs r l oA oP. destruct (XRing_Props.constructed_rep zero r0 l0 Hc) as (HR0 & _).
  destruct (XRing_Proofs.runOps_ok zero hist r0 l0 HR0) as (r1 & He & HR). assert (r = r1) as -> by (unfold r; now rewrite He).
  fold l in HR. clear He.
  assert (B : forall r l, XRing_Proofs.Rep zero r l -> forall later,
    fst (runOps (XRing_Model.ringStep zero) later r) = fst (runOps XRing_Spec.dequeStep later l)).
  { intros r l' HR' later. destruct (XRing_Proofs.runOps_ok zero later r l' HR') as (r2 & He & _). now rewrite He. }
  split.
  - assert (G : exists r', writes oA tt vs r1 = (Ok tt, r') /\ XRing_Proofs.Rep zero r' (l ++ vs)).
    { revert HR. generalize r1, l. induction vs as [|v vs IH]; intros r2 l2 HR.
      - exists r2. rewrite app_nil_r. split; [reflexivity|assumption].
      - destruct (XRing_Proofs.append_ok zero r2 l2 v HR) as (r3 & E3 & HR3). destruct (IH r3 _ HR3) as (r4 & E4 & HR4).
        exists r4. cbn [writes]. erewrite xbind_ok by exact E3. erewrite xbind_ok by reflexivity. split; [exact E4|].
        now rewrite <- app_assoc in HR4. }
    destruct G as (r' & E & HR'). exists r'. split; [exact E|]. now apply B.
  - assert (G : exists r', writes oP tt vs r1 = (Ok tt, r') /\ XRing_Proofs.Rep zero r' (rev vs ++ l)).
    { revert HR. generalize r1, l. induction vs as [|v vs IH]; intros r2 l2 HR.
      - exists r2. split; [reflexivity|assumption].
      - destruct (XRing_Proofs.prepend_ok zero r2 l2 v HR) as (r3 & E3 & HR3). destruct (IH r3 _ HR3) as (r4 & E4 & HR4).
        exists r4. cbn [writes]. erewrite xbind_ok by exact E3. erewrite xbind_ok by reflexivity. split; [exact E4|].
        cbn [rev]. now rewrite <- app_assoc. }
    destruct G as (r' & E & HR'). exists r'. split; [exact E|]. now apply B.
Qed.

(** FillN writes count copies, through these and any other iterator. *)
Theorem C24_fill_n :
  forall {St It T} (o : ops St It T) first count v s,
  FillN o first count v s = writes o first (repeat v (Z.to_nat count)) s.
Proof. intros. apply fill_writes. Qed.

(** Reading an inserter gives zero, Next is the inserter itself, and neither
    changes anything; two inserters are equal when they are for the same
    container. *)
Theorem C24_other_methods :
  forall {St It T C} (zero : T) (add : C -> T -> X St unit) (same : C -> C -> bool) (o : ops St It T) insert
    (s : St) (p : It) (c d : C),
  let oA := AppendIterator zero add same in
  let oP := PrependIterator zero add same in
  let oI := InsertIterator zero o insert in
  (Get oA c s = (Ok zero, s) /\ Next oA c s = (Ok c, s) /\ Equal oA c d s = (Ok (same c d), s)) /\
  (Get oP c s = (Ok zero, s) /\ Next oP c s = (Ok c, s) /\ Equal oP c d s = (Ok (same c d), s)) /\
  (Get oI tt (s, p) = (Ok zero, (s, p)) /\ Next oI tt (s, p) = (Ok tt, (s, p)) /\ Equal oI tt tt (s, p) = (Ok true, (s, p))).
Proof. intros. now repeat split. Qed.

(** ** C25: NewLenCap *)

(** For no length below the capacity does the result have that length. *)
Theorem C25_newlencap_refuted :
  forall {T} (zero : T) (h : heap T) len cap, 0 <= len < cap ->
  exists r h', NewLenCap zero len cap h = (Ok r, h') /\ Len r = cap /\ Len r <> len.
Proof.
  intros T zero h n cap Hn. unfold NewLenCap, makeSlice. replace (cap <? 0) with false by lia.
  replace (cap =? 0) with false by lia. eexists _, _. split; [reflexivity|]. cbn. lia.
Qed.
(** What holds: the result is zeroed, has room for [cap], and has the length
    asked for when that is the capacity; the same for NewLen. *)
Theorem C25_newlencap_partial :
  forall {T} (zero : T) (h : heap T) len cap, goHeap h -> 0 <= len <= cap ->
  exists r h', NewLenCap zero len cap h = (Ok r, h') /\ valid h' r /\ elems h' r = repeat zero (Z.to_nat cap) /\
    cap <= Cap r /\ (len = cap -> Len r = len) /\ NewLen zero cap h = (Ok r, h').
Proof.
  intros T zero h n cap [_ G] Hn. unfold NewLen, NewLenCap, makeSlice. replace (cap <? 0) with false by lia.
  destruct (cap =? 0) eqn:E.
  - apply Z.eqb_eq in E as ->. eexists _, _. split; [reflexivity|]. repeat split; cbn; try lia. exists []. split; [exact G|cbn; lia].
  - eexists _, _. split; [reflexivity|].
    pose proof (view_fresh zero h (repeat zero (Z.to_nat cap)) (zlen (repeat zero (Z.to_nat cap))) (Z.le_refl _)) as W.
    rewrite Z.sub_diag in W. cbn [Z.to_nat repeat] in W. rewrite app_nil_r in W. rewrite zlen_repeat in W.
    rewrite Z2Nat.id in W by lia.
    split; [eapply view_valid; exact W|]. split; [eapply view_elems; exact W|]. repeat split; cbn; try lia.
Qed.

(** ** A case that meets the hypotheses: [9; 1 3 3 5; 8] with the middle as slice. *)
Definition exHeap : heap Z := [[]; []; [9; 1; 3; 3; 5; 8]].
Definition exSlice : slice := mkSlice 2 1 4 5.
Example ex_valid : valid exHeap exSlice /\ goHeap exHeap /\ elems exHeap exSlice = [1; 3; 3; 5].
Proof. repeat split; cbn; try lia. exists [9; 1; 3; 3; 5; 8]. split; [reflexivity|cbn; lia]. Qed.
Example ex_reach : @reach Z exSlice (mkIt 3 exSlice).
Proof.
  eapply (reach_add exSlice exHeap exHeap (mkIt 4 exSlice) (-1)); [|reflexivity].
  eapply (reach_end exSlice exHeap exHeap). reflexivity.
Qed.
Example ex_insert : Insert 0 (fun _ n => n) exSlice 1 7 exHeap
  = (Ok (mkSlice 2 1 5 5), [[]; []; [9; 1; 7; 3; 3; 5]]).
Proof. reflexivity. Qed.
Example ex_delete : Delete exSlice 1 exHeap = (Ok (mkSlice 2 1 3 5), [[]; []; [9; 1; 3; 5; 5; 8]]).
Proof. reflexivity. Qed.
Example ex_unordered : UnorderedDelete exSlice 0 exHeap = (Ok (mkSlice 2 1 3 5), [[]; []; [9; 5; 3; 3; 1; 8]]).
Proof. reflexivity. Qed.
Example ex_reversed : Reversed 0 exSlice exHeap = (Ok (mkSlice 3 0 4 4), exHeap ++ [[5; 3; 3; 1]]).
Proof. reflexivity. Qed.
Example ex_ring : XRing_Props.constructed 0 (XRing_Model.Of [1; 2]) [1; 2].
Proof. apply XRing_Props.c_of. Qed.

Print Assumptions C17_reverse_lawful. Print Assumptions C17_slice_iterators_lawful. Print Assumptions C17_slice_ranges.
Print Assumptions C18_reverse_random_range_refuted. Print Assumptions C18_reverse_random_range_partial.
Print Assumptions C19_in_bounds. Print Assumptions C19_exact_panics.
Print Assumptions C20_insert. Print Assumptions C20_insert_panics. Print Assumptions C20_insert_foreign_iterator_panics.
Print Assumptions C21_delete. Print Assumptions C21_unordered_delete. Print Assumptions C21_delete_last.
Print Assumptions C21_delete_panics.
Print Assumptions C22_insert_frame. Print Assumptions C22_append_frame. Print Assumptions C22_append_one_frame.
Print Assumptions C22_delete_frame. Print Assumptions C22_other_slices_unchanged.
Print Assumptions C23_copy. Print Assumptions C23_reversed.
Print Assumptions C24_append_slice. Print Assumptions C24_insert_slice. Print Assumptions C24_ring. Print Assumptions C24_fill_n.
Print Assumptions C24_other_methods.
Print Assumptions C25_newlencap_refuted. Print Assumptions C25_newlencap_partial.
