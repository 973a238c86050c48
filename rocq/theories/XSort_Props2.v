(** Properties of xsort: numbers of comparisons (C80, C81). *)
From Verif Require Import Base XSort_Model XSort_Spec XSort_CostSpec XSort_StableCost XSort_Adaptive.

(** C80.  Stable makes O(n log n) calls to the comparator, whatever it answers. *)
Theorem C80_stable_comparisons :
  forall (E S : Type) (less : E -> E -> S -> bool * S) (data : list E) (s : S),
  exists data' s' calls,
    Stable data (counting less) (s, 0) = Ok (data', (s', calls)) /\
    calls <= 3 * zlen data * (Z.log2 (zlen data) + 1) + 19 * zlen data.
Proof. exact @Stable_comparisons. Qed.

(** C81.  Sort leaves sorted data as it is, equivalent elements included, after
    at most [n + 11] calls. *)
Theorem C81_sorted :
  forall (E S : Type) (lt : E -> E -> bool) (less : E -> E -> S -> bool * S),
  answers less lt ->
  forall (data : list E) (s : S), sorted_by lt data ->
  exists s' calls,
    Sort data (counting less) (s, 0) = Ok (data, (s', calls)) /\
    calls <= zlen data + 11.
Proof. intros E S lt less HA data s HS. exact (Sort_asc less lt data s HA HS). Qed.

(** C81: strictly descending data of 50 elements or more is reversed, after
    exactly [n + 11] calls. *)
Theorem C81_descending :
  forall (E S : Type) (lt : E -> E -> bool) (less : E -> E -> S -> bool * S),
  strict_weak_order lt -> answers less lt ->
  forall (data : list E) (s : S), strictly_descending lt data -> 50 <= zlen data ->
  exists s', Sort data (counting less) (s, 0) = Ok (rev data, (s', zlen data + 11)).
Proof. intros E S lt less HW HA data s HD HN. exact (Sort_desc less lt data s HW HA HD HN). Qed.

Print Assumptions C80_stable_comparisons.
Print Assumptions C81_sorted.
Print Assumptions C81_descending.

(** ** Non-vacuity *)

(** A comparator that forgets its operands and answers by a coin of its own
    still costs Stable no more than the bound. *)
Definition coin (x y : Z) (s : Z) : bool * Z := (Z.odd (s / 2), s + 1).
Example coin_counts : exists d s' k,
  Stable [3; 1; 2; 1; 0] (counting coin) (0, 0) = Ok (d, (s', k)) /\ 4 < k.
Proof. eexists _, _, _. split; [vm_compute; reflexivity|lia]. Qed.

(** Sorted data with equivalent, distinguishable elements. *)
Definition byFst (x y : Z * Z) (s : unit) : bool * unit := (fst x <? fst y, s).
Definition twenty : list (Z * Z) := map (fun i => (Z.of_nat i / 2, Z.of_nat i)) (seq 0 20).
Example twenty_sorted : sorted_by (fun x y => fst x <? fst y) twenty.
Proof.
  intros i j x y Hij Hi Hj. unfold twenty in *. rewrite nth_error_map in Hi, Hj.
  assert (i < 20)%nat by (rewrite <- (seq_length 20 0); apply nth_error_Some; intros H; now rewrite H in Hi).
  assert (j < 20)%nat by (rewrite <- (seq_length 20 0); apply nth_error_Some; intros H'; now rewrite H' in Hj).
  rewrite (nth_error_nth' _ 0%nat), seq_nth in Hi by (rewrite ?seq_length; lia).
  rewrite (nth_error_nth' _ 0%nat), seq_nth in Hj by (rewrite ?seq_length; lia).
  cbn [option_map] in *. injection Hi as <-. injection Hj as <-. cbn [fst].
  apply Z.ltb_ge, Z.div_le_mono; lia.
Qed.
Example twenty_calls : Sort twenty (counting byFst) (tt, 0) = Ok (twenty, (tt, 22)).
Proof. vm_compute. reflexivity. Qed.

Definition sixty : list Z := map (fun i => - Z.of_nat i) (seq 0 60).
Example sixty_descending : strictly_descending Z.ltb sixty /\ 50 <= zlen sixty.
Proof.
  split; [|vm_compute; discriminate].
  intros i j x y Hij Hi Hj. unfold sixty in *. rewrite nth_error_map in Hi, Hj.
  assert (i < 60)%nat by (rewrite <- (seq_length 60 0); apply nth_error_Some; intros H; now rewrite H in Hi).
  assert (j < 60)%nat by (rewrite <- (seq_length 60 0); apply nth_error_Some; intros H'; now rewrite H' in Hj).
  rewrite (nth_error_nth' _ 0%nat), seq_nth in Hi by (rewrite ?seq_length; lia).
  rewrite (nth_error_nth' _ 0%nat), seq_nth in Hj by (rewrite ?seq_length; lia).
  cbn [option_map] in *. injection Hi as <-. injection Hj as <-. apply Z.ltb_lt. lia.
Qed.
