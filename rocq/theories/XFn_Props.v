(** Properties of xfn and xmath (C50-C55). *)
From Coq Require Import Permutation SpecFloat.
From Verif Require Import Base Exn XSort_Model XSort_Spec XSort_Props
  XFn_Model XFn_Proofs XFn_Bind_Model XFn_Bind_Spec XFn_Bind_Proofs.

(** ** C50: predicates.  Pure predicates are given as functions [f : T -> bool],
    lifted to callbacks that leave the state alone. *)
Definition pure {T S} (f : T -> bool) : Predicate T S := fun v s => (f v, s).

Theorem C50_or :
  forall (T S : Type) (fs : list (T -> bool)) (v : T) (s : S),
  exists b, Or (map pure fs) v s = (b, s) /\
    (b = true <-> exists f, In f fs /\ f v = true).
Proof.
  intros. unfold Or. eexists. split; [apply scan_pure|].
  destruct (existsb _ fs) eqn:E; [apply existsb_exists in E; tauto|].
  split; [discriminate|]. intros H. assert (existsb (fun f => f v) fs = true) by now apply existsb_exists.
  congruence.
Qed.

Theorem C50_not :
  forall (T S : Type) (fs : list (T -> bool)) (v : T) (s : S),
  exists b, Not (map pure fs) v s = (b, s) /\
    (b = true <-> forall f, In f fs -> f v = false).
Proof.
  intros. unfold Not. eexists. split; [apply scan_pure|].
  destruct (existsb _ fs) eqn:E.
  - split; [discriminate|]. intros H. apply existsb_exists in E as (f & Hf & Hv).
    rewrite (H f Hf) in Hv. discriminate.
  - split; [|auto]. intros _ f Hf. destruct (f v) eqn:Ef; [|reflexivity].
    assert (existsb (fun f => f v) fs = true) by (apply existsb_exists; eauto). congruence.
Qed.

(** And(fns) should be true iff every fn is; it is not, ... *)
Theorem C50_and_refuted :
  ~ (forall (T S : Type) (fs : list (T -> bool)) (v : T) (s : S),
       exists b, And (map pure fs) v s = (b, s) /\
         (b = true <-> forall f, In f fs -> f v = true)).
Proof.
  intros H. destruct (H unit unit [fun _ => true; fun _ => false] tt tt) as (b & Hb & Hiff).
  cbn in Hb. injection Hb as <-. destruct Hiff as [Hiff _].
  specialize (Hiff eq_refl (fun _ => false)). cbn in Hiff. intuition discriminate.
Qed.

(** ... what it computes is the disjunction. *)
Theorem C50_and_partial :
  forall (T S : Type) (fs : list (T -> bool)) (v : T) (s : S),
  exists b, And (map pure fs) v s = (b, s) /\
    (b = true <-> exists f, In f fs /\ f v = true).
Proof. exact C50_or. Qed.

(** The method And is no conjunction either: it is the disjunction of the receiver
    and the arguments. *)
Theorem C50_and_method_refuted :
  ~ (forall (T S : Type) (f0 : T -> bool) (fs : list (T -> bool)) (v : T) (s : S),
       exists b, mAnd (pure f0) (map pure fs) v s = (b, s) /\
         (b = true <-> f0 v = true /\ forall f, In f fs -> f v = true)).
Proof.
  intros H. destruct (H unit unit (fun _ => true) [fun _ => false] tt tt) as (b & Hb & Hiff).
  cbn in Hb. injection Hb as <-. destruct Hiff as [Hiff _].
  destruct (Hiff eq_refl) as [_ A]. specialize (A (fun _ => false)). cbn in A. intuition discriminate.
Qed.

Theorem C50_and_method_partial :
  forall (T S : Type) (f0 : T -> bool) (fs : list (T -> bool)) (v : T) (s : S),
  exists b, mAnd (pure f0) (map pure fs) v s = (b, s) /\
    (b = true <-> f0 v = true \/ exists f, In f fs /\ f v = true).
Proof.
  intros T S f0 fs v s. destruct (C50_and_partial T S (f0 :: fs) v s) as (b & Hb & Hi).
  exists b. split; [exact Hb|]. rewrite Hi. cbn. split.
  - intros (f & [<-|Hf] & Hv); eauto.
  - intros [H|(f & Hf & Hv)]; eauto.
Qed.

Theorem C50_methods :
  forall (T S : Type) (p : Predicate T S) (fs : list (T -> bool)) (f0 : T -> bool) (v : T) (s : S),
  (exists b, mOr (pure f0) (map pure fs) v s = (b, s) /\
     (b = true <-> f0 v = true \/ exists f, In f fs /\ f v = true)) /\
  (forall b s', p v s = (b, s') -> Neg p v s = (negb b, s')) /\
  True_ v s = (true, s) /\ False_ v s = (false, s).
Proof.
  intros T S p fs f0 v s. split; [|split; [|split; reflexivity]].
  - destruct (C50_or T S (f0 :: fs) v s) as (b & Hb & Hi). exists b. split; [exact Hb|].
    rewrite Hi. cbn. split.
    + intros (f & [<-|Hf] & Hv); eauto.
    + intros [H|(f & Hf & Hv)]; eauto.
  - intros b s' H. unfold Neg. rewrite H. reflexivity.
Qed.

(** For any ==, also one that is not equality (floats with NaN, where a value
    may differ from itself). *)
Theorem C50_membership_any :
  forall (T S : Type) (eqb : T -> T -> bool) (rhs : list T) (v x : T) (s : S),
  (exists b, IsEqAny eqb rhs v s = (b, s) /\ (b = true <-> exists r, In r rhs /\ eqb v r = true)) /\
  (exists b, IsNeqAny eqb rhs v s = (b, s) /\ (b = true <-> forall r, In r rhs -> eqb v r = false)) /\
  IsEq eqb x v s = (eqb v x, s) /\ IsNeq eqb x v s = (negb (eqb v x), s).
Proof.
  intros T S eqb rhs v x s. pose proof (existsb_exists (eqb v) rhs) as Hin.
  split; [|split; [|split; reflexivity]]; (eexists; split; [reflexivity|]); rewrite scanEq_spec;
    destruct (existsb _ _); cbn.
  - tauto.
  - tauto.
  - split; [discriminate|]. intros H. destruct Hin as [[r [H1 H2]] _]; [reflexivity|]. rewrite (H r H1) in H2. discriminate.
  - split; [|reflexivity]. intros _ r Hr. destruct (eqb v r) eqn:E; [|reflexivity].
    destruct Hin as [_ Hin]. symmetry. apply Hin. eauto.
Qed.

Theorem C50_membership :
  forall (T S : Type) (eqb : T -> T -> bool), (forall x y, eqb x y = true <-> x = y) ->
  forall (rhs : list T) (v x : T) (s : S),
  (exists b, IsEqAny eqb rhs v s = (b, s) /\ (b = true <-> In v rhs)) /\
  (exists b, IsNeqAny eqb rhs v s = (b, s) /\ (b = true <-> ~ In v rhs)) /\
  (exists b, IsEq eqb x v s = (b, s) /\ (b = true <-> v = x)) /\
  (exists b, IsNeq eqb x v s = (b, s) /\ (b = true <-> v <> x)).
Proof.
  intros T S eqb He rhs v x s.
  assert (Hin : existsb (eqb v) rhs = true <-> In v rhs).
  { rewrite existsb_exists. split; [intros (y & Hy & E); apply He in E; now subst|].
    intros H. exists v. split; auto. now apply He. }
  split; [|split; [|split]].
  - eexists. split; [reflexivity|]. rewrite scanEq_spec. destruct (existsb _ _); cbn; tauto.
  - eexists. split; [reflexivity|]. rewrite scanEq_spec. destruct (existsb _ _) eqn:E; cbn.
    + split; [discriminate|]. tauto.
    + split; [|auto]. intros _ H. apply Hin in H. discriminate.
  - eexists. split; [reflexivity|]. apply He.
  - eexists. split; [reflexivity|]. rewrite negb_true_iff. split.
    + intros H ->. assert (eqb x x = true) by now apply He. congruence.
    + intros H. destruct (eqb v x) eqn:E; [|reflexivity]. apply He in E. contradiction.
Qed.

(** Evaluation order of Or and Not: the callbacks called are the first [k], in
    order, and only the last of them can have answered true; if some were not
    called, it did.  [logged 0 fs] gives each predicate the side effect of
    appending its index to a log. *)
Theorem C50_short_circuit :
  forall (T : Type) (fs : list (T -> bool)) (v : T) (conn : list (Predicate T (list nat)) -> Predicate T (list nat)),
  conn = Or \/ conn = Not ->
  exists b k, conn (logged 0 fs) v [] = (b, seq 0 k) /\
    (k <= List.length fs)%nat /\
    (forall j f, (S j < k)%nat -> nth_error fs j = Some f -> f v = false) /\
    (k < List.length fs -> exists f, nth_error fs (pred k) = Some f /\ f v = true /\ (0 < k))%nat.
Proof.
  intros T fs v conn [-> | ->];
    [destruct (scan_logged true fs v 0 []) as (k & H & H')|
     destruct (scan_logged false fs v 0 []) as (k & H & H')]; unfold Or, Not; rewrite H; eexists _, k; (split; [reflexivity|exact H']).
Qed.

(** ** C51 *)
Theorem C51_prefix_suffix :
  forall (B : Type) (eqb : B -> B -> bool), (forall x y, eqb x y = true <-> x = y) ->
  forall p v : list B,
  (exists b, HasPrefix eqb p v = Ok b /\ (b = true <-> exists rest, v = p ++ rest)) /\
  (exists b, HasSuffix eqb p v = Ok b /\ (b = true <-> exists rest, v = rest ++ p)).
Proof. intros. split; [now apply prefix_spec|now apply suffix_spec]. Qed.

Example C51_nonvacuous :
  HasPrefix Z.eqb [1; 2] [1; 2; 3] = Ok true /\ HasSuffix Z.eqb [1; 2; 3] [2; 3] = Ok false.
Proof. split; reflexivity. Qed.

(** ** C52 *)
Theorem C52_lessfloat_order :
  strict_weak_order LessFloat /\
  (forall x, x <> S754_nan -> LessFloat S754_nan x = true /\ LessFloat x S754_nan = false) /\
  (forall x y, x <> S754_nan -> y <> S754_nan -> LessFloat x y = SFltb x y).
Proof.
  assert (N : forall x, x <> S754_nan -> isNaN x = false) by (intros []; cbn; congruence).
  split; [exact lessfloat_swo|split].
  - intros x Hx. pose proof (lessfloat_nan_least x (N _ Hx)) as H. split; [assumption|].
    destruct (LessFloat x S754_nan) eqn:E; [|reflexivity].
    pose proof (swo_trans _ lessfloat_swo _ _ _ H E) as H1.
    rewrite (swo_irrefl _ lessfloat_swo) in H1. discriminate.
  - intros x y Hx Hy. apply lessfloat_nonnan; auto.
Qed.

(** Sorting any float slice with LessFloat: NaNs come first, the rest ascends. *)
Theorem C52_sort_floats :
  forall data : list spec_float,
  exists data' s', Sort data (fun x y (s : unit) => (LessFloat x y, s)) tt = Ok (data', s') /\
    Permutation data data' /\
    (forall i j x y, (i < j)%nat -> nth_error data' i = Some x -> nth_error data' j = Some y ->
       (y = S754_nan -> x = S754_nan) /\ SFltb y x = false).
Proof.
  intros data.
  destruct (C02_sort_sorts _ unit LessFloat (fun x y s => (LessFloat x y, s)) lessfloat_swo
              (fun _ _ _ => eq_refl) data tt) as (d' & s' & H & Hp & Hs).
  exists d', s'. split; [exact H|split; [exact Hp|]]. intros i j x y Hij Hx Hy.
  specialize (Hs i j x y Hij Hx Hy). split.
  - intros ->. destruct (isNaN x) eqn:E; [destruct x; cbn in E; congruence|].
    rewrite (lessfloat_nan_least x E) in Hs. discriminate.
  - destruct (isNaN y) eqn:Ey; [destruct y; try discriminate; reflexivity|].
    destruct (isNaN x) eqn:Ex; [destruct x, y; try discriminate; reflexivity|].
    rewrite <- lessfloat_nonnan; assumption.
Qed.

(** Plain [<] is not a strict weak order: 1 ~ NaN ~ 2 but 1 < 2. *)
Theorem C52_less_not_order :
  ~ strict_weak_order Less /\
  (forall x, Less x S754_nan = false /\ Less S754_nan x = false) /\
  (forall x y, x <> S754_nan -> y <> S754_nan -> Less x y = LessFloat x y).
Proof.
  split; [|split].
  - intros [_ _ H].
    destruct (H (S754_finite false 1 0) S754_nan (S754_finite false 2 0)); vm_compute in *; congruence.
  - intros []; split; reflexivity.
  - intros x y Hx Hy. symmetry. apply lessfloat_nonnan; [destruct x|destruct y]; cbn; congruence.
Qed.

(** ** C53, C54.  Arguments of the functions: type identity, reflect's
    convertibility and conversion (whose result has the target type),
    assignability, slice element type and slice construction, and the names of
    types (they occur in panic messages only). *)
Theorem C53_bind_routes :
  forall (ty pay : Type) (ty_eqb : ty -> ty -> bool) canConv conv assignable elem mkslice
    (show : ty -> string) (showFn : sig ty -> string),
  (forall a b, ty_eqb a b = true <-> a = b) ->
  (forall (v : value ty pay) t, canConv v t = true -> vty (conv v t) = t) ->
  forall (src : srcArg ty) (d : sig ty) (args : list (barg ty pay)) b,
  Bind ty_eqb canConv conv show showFn src (DestFunc d) args = Ok b ->
  forall s, src = SrcFunc s -> variadic s = false ->
  forall calls : list (list (value ty pay)), (forall c, In c calls -> map vty c = ins d) ->
  (* running any sequence of calls *)
  Forall2 (fun call res => exists passed, res = Ok passed /\
      List.length passed = List.length (ins s) /\
      forall i t, nth_error (ins s) i = Some t -> nth_error passed i = routed conv args call i t)
    calls (fst (runOps (callBound ty_eqb assignable elem mkslice) calls b)).
Proof.
  intros ty pay ty_eqb canConv conv assignable elem mkslice show showFn He Hc src d args b HB s -> Hv.
  destruct (Bind_inv ty_eqb He canConv conv show showFn _ _ _ _ HB) as (s' & d' & [= <-] & [= <-] & Hok).
  assert (b = boundOf conv s args) as ->.
  { pose proof (Bind_ok ty_eqb He canConv conv show showFn s d args Hok). congruence. }
  induction calls as [|call calls IH]; intros Hty; cbn [runOps].
  - constructor.
  - destruct (callBound_ok ty_eqb He canConv conv show showFn assignable elem mkslice Hc s d args call Hok)
      as (vs & E & Ht & Hr); [apply Hty; left; reflexivity|assumption|].
    rewrite E. destruct (runOps _ calls _) as [rs b'] eqn:ER. cbn [fst] in *. constructor.
    + exists vs. split; [reflexivity|split; [|assumption]]. rewrite <- Ht. now rewrite map_length.
    + apply IH. intros c Hin. apply Hty. right. assumption.
Qed.

Theorem C54_bind_accepts :
  forall (ty pay : Type) (ty_eqb : ty -> ty -> bool) canConv conv
    (show : ty -> string) (showFn : sig ty -> string),
  (forall a b, ty_eqb a b = true <-> a = b) ->
  forall (src : srcArg ty) (dest : destArg ty) (args : list (barg ty pay)),
  ((exists b, Bind ty_eqb canConv conv show showFn src dest args = Ok b) <->
   exists s d, src = SrcFunc s /\ dest = DestFunc d /\ bindable canConv s d args) /\
  ((exists m, Bind ty_eqb canConv conv show showFn src dest args = Panic m) <->
   ~ exists s d, src = SrcFunc s /\ dest = DestFunc d /\ bindable canConv s d args).
Proof.
  intros ty pay ty_eqb canConv conv show showFn He src dest args.
  assert (H : (exists b, Bind ty_eqb canConv conv show showFn src dest args = Ok b) <->
     exists s d, src = SrcFunc s /\ dest = DestFunc d /\ bindable canConv s d args).
  { split.
    - intros [b H]. eapply Bind_inv; eauto.
    - intros (s & d & -> & -> & H). exists (boundOf conv s args). now apply Bind_ok. }
  split; [exact H|]. rewrite <- H. split.
  - intros [m E] [b E']. congruence.
  - intros HN. destruct (Bind ty_eqb canConv conv show showFn src dest args) eqn:E; eauto.
    + exfalso. eauto.
    + exfalso. eapply Bind_no_diverge; eauto.
Qed.

Theorem C54_bind_well_typed_partial :
  forall (ty pay : Type) (ty_eqb : ty -> ty -> bool) canConv conv assignable elem mkslice
    (show : ty -> string) (showFn : sig ty -> string),
  (forall a b, ty_eqb a b = true <-> a = b) ->
  (forall (v : value ty pay) t, canConv v t = true -> vty (conv v t) = t) ->
  forall (s d : sig ty) (args : list (barg ty pay)) b,
  Bind ty_eqb canConv conv show showFn (SrcFunc s) (DestFunc d) args = Ok b ->
  variadic s = false ->
  forall call, map vty call = ins d ->
  exists passed b', callBound ty_eqb assignable elem mkslice call b = (Ok passed, b') /\
    map vty passed = ins s.
Proof.
  intros ty pay ty_eqb canConv conv assignable elem mkslice show showFn He Hc s d args b HB Hv call Hcall.
  destruct (Bind_inv ty_eqb He canConv conv show showFn _ _ _ _ HB) as (s' & d' & [= <-] & [= <-] & Hok).
  assert (b = boundOf conv s args) as ->.
  { pose proof (Bind_ok ty_eqb He canConv conv show showFn s d args Hok). congruence. }
  destruct (callBound_ok ty_eqb He canConv conv show showFn assignable elem mkslice Hc s d args call Hok)
    as (vs & E & Ht & _); eauto.
Qed.

(** A variadic src: Bind accepts, the call panics.  Types: 0 = int, 1 = []int;
    the payload of a value is irrelevant. *)
Theorem C54_variadic_refuted :
  exists (s d : sig Z) (b : bound Z unit) (call : list (value Z unit)) (m : string),
    Bind Z.eqb (fun v t => vty v =? t) (fun v _ => v) decimal (fun _ => "func"%string) (SrcFunc s) (DestFunc d) [] = Ok b /\
    bindable (fun (v : value Z unit) t => vty v =? t) s d [] /\
    map vty call = ins d /\
    fst (callBound Z.eqb Z.eqb (fun t => t - 1) (fun t _ => {| vty := t; vpay := tt |}) call b) = Panic m.
Proof.
  exists {| ins := [1]; outs := []; variadic := true |},
         {| ins := [1]; outs := []; variadic := true |},
         {| b_src := {| ins := [1]; outs := []; variadic := true |}; values := [None];
            placeholders := [{| fromArg := 0; toArg := 0 |}] |},
         [{| vty := 1; vpay := tt |}], "reflect: Call using wrong type"%string.
  split; [reflexivity|split; [|split; reflexivity]].
  split.
  - reflexivity.
  - cbn. lia.
  - intros [|i] v t H; discriminate H.
  - intros [].
  - intros k [].
  - intros [|i] k t H; discriminate H.
  - intros [|[|i]] t _ H; cbn in H; try discriminate H. exact H.
Qed.

(** What happens with a variadic src, whatever the types: the parameters before
    the last get their arguments as in C53; the last one does not get the slice
    routed to it but a new slice with that slice as its only element, if it may
    be an element (as for ...any), and otherwise the call panics. *)
Theorem C54_variadic_partial :
  forall (ty pay : Type) (ty_eqb : ty -> ty -> bool) canConv conv assignable elem mkslice
    (show : ty -> string) (showFn : sig ty -> string),
  (forall a b, ty_eqb a b = true <-> a = b) ->
  (forall (v : value ty pay) t, canConv v t = true -> vty (conv v t) = t) ->
  forall (s d : sig ty) (args : list (barg ty pay)) b,
  Bind ty_eqb canConv conv show showFn (SrcFunc s) (DestFunc d) args = Ok b ->
  forall front st, variadic s = true -> ins s = front ++ [st] ->
  forall call, map vty call = ins d ->
  exists passed v,
    map vty passed = front /\
    (forall i t, nth_error front i = Some t -> nth_error passed i = routed conv args call i t) /\
    routed conv args call (List.length front) st = Some v /\
    let fits := st = elem st \/ assignable st (elem st) = true in
    (fits -> callBound ty_eqb assignable elem mkslice call b =
       (Ok (passed ++ [mkslice st [{| vty := elem st; vpay := vpay v |}]]), b)) /\
    (~ fits -> exists m, callBound ty_eqb assignable elem mkslice call b = (Panic m, b)).
Proof.
  intros ty pay ty_eqb canConv conv assignable elem mkslice show showFn He Hc s d args b HB front st Hv Hs call Hcall.
  destruct (Bind_inv ty_eqb He canConv conv show showFn _ _ _ _ HB) as (s' & d' & [= <-] & [= <-] & Hok).
  assert (b = boundOf conv s args) as ->.
  { pose proof (Bind_ok ty_eqb He canConv conv show showFn s d args Hok). congruence. }
  destruct (callBound_variadic ty_eqb He canConv conv show showFn assignable elem mkslice Hc s d args call front st Hok Hcall Hv Hs)
    as (vs & v & _ & H1 & H2 & H3 & H4 & E).
  exists vs, v. split; [assumption|]. split; [assumption|]. split; [assumption|]. cbv zeta. rewrite E.
  destruct (ty_eqb st (elem st)) eqn:E1; [apply He in E1|]; cbn [orb].
  - split; [reflexivity|]. intros N. elim N. now left.
  - destruct (assignable st (elem st)) eqn:E2.
    + split; [reflexivity|]. intros N. elim N. now right.
    + split; [|eauto]. intros [F|F]; [apply He in F; congruence|discriminate].
Qed.

(** fmt.Sprint-like src: types 0 = any, 1 = []any; anything is assignable to any.
    Bind(src) called with one []any hands src a slice holding that slice. *)
Example C54_variadic_any :
  let V t p := {| vty := t; vpay := p |} in
  let s := {| ins := [5; 1]; outs := []; variadic := true |} in
  exists b, Bind Z.eqb (fun _ _ => true) (fun v t => V t (vpay v)) decimal (fun _ => "func"%string) (SrcFunc s) (DestFunc s) [] = Ok b /\
    fst (callBound Z.eqb (fun _ t => t =? 0) (fun t => t - 1) (fun t l => V t (fold_right Z.add 1000 (map vpay l)))
           [V 5 3; V 1 7] b) = Ok [V 5 3; V 1 1007].
Proof. eexists. split; reflexivity. Qed.

(** Non-vacuity: func(a, b, c, d) bound as (P2, value, P2) to a dest of 3 inputs. *)
Example C53_nonvacuous :
  let V t p := {| vty := t; vpay := p |} in
  let s := {| ins := [0; 1; 0; 2]; outs := [5]; variadic := false |} in
  let d := {| ins := [7; 0; 2]; outs := [5]; variadic := false |} in
  exists b, Bind Z.eqb (fun _ _ => true) (fun v t => V t (vpay v)) decimal (fun _ => "func"%string)
              (SrcFunc s) (DestFunc d) [APh 2; AVal (V 9 100); APh 2] = Ok b /\
    fst (callBound Z.eqb Z.eqb (fun t => t) (fun t _ => V t 0) [V 7 10; V 0 11; V 2 12] b)
      = Ok [V 0 11; V 1 100; V 0 11; V 2 12].
Proof. eexists. split; reflexivity. Qed.

(** ** C55.  [total_order_ops] plus the two remaining operators. *)
Theorem C55_min_max :
  forall (T : Type) (ltb leb geb gtb : T -> T -> bool),
  total_order_ops ltb geb ->
  (forall x y, leb x y = negb (ltb y x)) -> (forall x y, gtb x y = ltb y x) ->
  forall a b : T,
  (Min leb a b = a \/ Min leb a b = b) /\ leb (Min leb a b) a = true /\ leb (Min leb a b) b = true /\
  (Max geb a b = a \/ Max geb a b = b) /\ geb (Max geb a b) a = true /\ geb (Max geb a b) b = true /\
  (FullComparatorOf ltb gtb a b = -1 <-> ltb a b = true) /\
  (FullComparatorOf ltb gtb a b = 0 <-> a = b) /\
  (FullComparatorOf ltb gtb a b = 1 <-> gtb a b = true).
Proof.
  intros T ltb leb geb gtb [[Hi Ht _] Hge Ha] Hle Hgt a b.
  assert (asym : forall x y, ltb x y = true -> ltb y x = false).
  { intros x y H. destruct (ltb y x) eqn:E; [|reflexivity].
    pose proof (Ht _ _ _ H E) as H1. rewrite Hi in H1. discriminate. }
  unfold Min, Max, FullComparatorOf. rewrite !Hle, !Hge, !Hgt.
  destruct (ltb a b) eqn:Eab; [pose proof (asym _ _ Eab) as Eba|destruct (ltb b a) eqn:Eba];
    rewrite ?Eba; cbn [negb]; rewrite ?Hle, ?Hge, ?Hi, ?Eab, ?Eba; cbn [negb];
    repeat split; auto; try lia; try discriminate; intros; subst; try congruence.
Qed.

Example C55_nonvacuous : total_order_ops Z.ltb Z.geb.
Proof.
  split; [split|..].
  - apply Z.ltb_irrefl.
  - intros x y z. rewrite !Z.ltb_lt. lia.
  - intros x y z. rewrite !Z.ltb_ge. lia.
  - intros x y. rewrite Z.geb_leb. destruct (Z.leb_spec y x), (Z.ltb_spec x y); cbn; auto; lia.
  - intros x y. rewrite !Z.ltb_ge. lia.
Qed.

Print Assumptions C50_or.
Print Assumptions C50_not.
Print Assumptions C50_and_refuted.
Print Assumptions C50_and_partial.
Print Assumptions C50_and_method_refuted.
Print Assumptions C50_and_method_partial.
Print Assumptions C50_methods.
Print Assumptions C50_membership.
Print Assumptions C50_membership_any.
Print Assumptions C50_short_circuit.
Print Assumptions C51_prefix_suffix.
Print Assumptions C52_lessfloat_order.
Print Assumptions C52_sort_floats.
Print Assumptions C52_less_not_order.
Print Assumptions C53_bind_routes.
Print Assumptions C54_bind_accepts.
Print Assumptions C54_bind_well_typed_partial.
Print Assumptions C54_variadic_refuted.
Print Assumptions C54_variadic_partial.
Print Assumptions C55_min_max.
