(** C76-C79: xrand.Crypto and the functions of xrand and secrand. *)
From Coq Require Import Permutation.
From Verif Require Import Base Exn Rand_Model Rand_Spec Rand_Proofs Rand_Perm Rand_Read Rand_Round.
Local Open Scope string_scope.
Local Open Scope list_scope.
Local Open Scope Z_scope.

(** *** C76: xrand.Crypto.  Uint64 is the number whose bytes are the eight bytes
    read, Int63 its low 63 bits; both panic exactly when the read fails; Seed
    does nothing. *)
Theorem C76_crypto {W} (read : W -> option (list Z) * W) w w' :
  match fst (read w) with
  | Some b => List.length b = 8%nat -> Forall (fun x => 0 <= x < 256) b -> w' = snd (read w) ->
      cryptoUint64 read w = (Ok (fromBytes b), w') /\ 0 <= fromBytes b < 2 ^ 64 /\
      exists v, cryptoInt63 read w = (Ok v, w') /\ 0 <= v < 2 ^ 63 /\ v = fromBytes b mod 2 ^ 63
  | None => (exists m, fst (cryptoUint64 read w) = Panic m) /\ exists m, fst (cryptoInt63 read w) = Panic m
  end /\ forall seed, cryptoSeed seed w = (Ok tt, w).
Proof.
  split; [|reflexivity]. unfold cryptoInt63, xbind, cryptoUint64. destruct (read w) as [[b|] w1]; cbn [fst snd].
  - intros HL HF ->. destruct (from_bytes_le b) as [E HR]; [unfold zlen; now rewrite HL|exact HF|]. rewrite E. split; [reflexivity|].
    split; [exact HR|]. eexists. split; [reflexivity|]. rewrite Secrand_Proofs.ldiff63 by exact HR.
    split; [apply Z.mod_pos_bound; reflexivity|reflexivity].
  - split; eexists; reflexivity.
Qed.
Print Assumptions C76_crypto.
(** Eight uniform bytes give a uniform number: each number comes from exactly
    one choice of the bytes. *)
Theorem C76_uniform v : 0 <= v < 2 ^ 64 ->
  exists b, (List.length b = 8%nat /\ Forall (fun x => 0 <= x < 256) b /\ fromBytes b = v) /\
    forall b', List.length b' = 8%nat -> Forall (fun x => 0 <= x < 256) b' -> fromBytes b' = v -> b' = b.
Proof. exact (bytes_unique 8 v). Qed.
Print Assumptions C76_uniform.
Example C76_example :
  let read w := (Some w, w) in let b := [1; 2; 3; 4; 5; 6; 7; 0x88] in
  fst (cryptoUint64 read b) = Ok 0x8807060504030201 /\ fst (cryptoInt63 read b) = Ok 0x0807060504030201.
Proof. split; reflexivity. Qed.

(** *** C77: bounded numbers.  They panic exactly when the bound is not
    positive, and results are below the bound, whatever the source. *)
Theorem C77_range {st} (src : st -> Z * st) fuel n s : forall F, In F [Int63n src fuel n; Int31n src fuel n; Intn src fuel n] ->
  (n <= 0 -> exists m, F s = (Panic m, s)) /\
  (0 < n -> match fst (F s) with Ok r => 0 <= r < n | Panic _ => False | Diverge => True end).
Proof.
  intros F HF. split; intros Hn.
  - unfold Int63n, Int31n, Intn in HF. rewrite (proj2 (Z.leb_le _ _)) in HF by exact Hn.
    destruct HF as [<-|[<-|[<-|[]]]]; eexists; reflexivity.
  - destruct HF as [<-|[<-|[<-|[]]]].
    + destruct (Int63n src fuel n s) as [[r|m|] s'] eqn:E; cbn [fst]; [|now apply Int63n_panic in E|exact I]. eapply Int63n_range; eassumption.
    + destruct (Int31n src fuel n s) as [[r|m|] s'] eqn:E; cbn [fst]; [|now apply Int31n_panic in E|exact I]. eapply Int31n_range; eassumption.
    + destruct (Intn src fuel n s) as [[r|m|] s'] eqn:E; cbn [fst]; [|now apply Intn_panic in E|exact I]. eapply Intn_range; eassumption.
Qed.
Print Assumptions C77_range.

(** Uniform: of the 2^63 words that the source can give next, equally many make
    the function return each of the numbers below the bound, and less than half
    make it draw another word. *)
Theorem C77_uniform :
  (forall n, 0 < n < 2 ^ 63 -> equallyLikely (2 ^ 63) n (fun w => fst (Int63n always 0 n w))) /\
  (forall n, 0 < n < 2 ^ 31 -> equallyLikely (2 ^ 63) n (fun w => fst (Int31n always 0 n w))) /\
  (forall n, 0 < n < 2 ^ 63 -> equallyLikely (2 ^ 63) n (fun w => fst (Intn always 0 n w))) /\
  (forall n, 0 < n < 2 ^ 31 -> equallyLikely (2 ^ 63) n (fun w => fst (int31n always 0 n w))).
Proof.
  assert (H31 : forall n, 0 < n < 2 ^ 31 -> equallyLikely (2 ^ 63) n (fun w => fst (Int31n always 0 n w))).
  { intros n Hn. eapply likely_ext; [|change (2 ^ 63) with (2 ^ 31 * 2 ^ 32); apply likely_shift; [lia|apply (likely_mod (2 ^ 31) n); lia]].
    intros w Hw. rewrite Int31n_first by (try exact always_63; lia). rewrite always_words by exact Hw. reflexivity. }
  assert (H63 : forall n, 0 < n < 2 ^ 63 -> equallyLikely (2 ^ 63) n (fun w => fst (Int63n always 0 n w))).
  { intros n Hn. eapply likely_ext; [|apply (likely_mod (2 ^ 63) n); lia].
    intros w Hw. rewrite Int63n_first by (try exact always_63; lia). rewrite always_words by exact Hw. reflexivity. }
  split; [exact H63|]. split; [exact H31|]. split.
  - intros n Hn. unfold Intn. rewrite (proj2 (Z.leb_gt _ _)) by lia. destruct (Z.leb_spec n (2 ^ 31 - 1)); [apply H31; lia|now apply H63].
  - intros n Hn. eapply likely_ext; [|change (2 ^ 63) with (2 ^ 32 * 2 ^ 31); apply likely_shift; [lia|apply (likely_product (2 ^ 32) n); lia]].
    intros w Hw. rewrite int31n_first by (try exact always_63; lia). rewrite always_words by exact Hw. reflexivity.
Qed.
Print Assumptions C77_uniform.

(** The result depends on the first word that is not rejected, and on nothing
    before it: rejected words leave no trace. *)
Theorem C77_redraws :
  (forall n, 0 < n < 2 ^ 63 -> redraws (fun st src fuel => @Int63n st src fuel n)) /\
  (forall n, 0 < n < 2 ^ 31 -> redraws (fun st src fuel => @Int31n st src fuel n)) /\
  (forall n, 0 < n < 2 ^ 63 -> redraws (fun st src fuel => @Intn st src fuel n)) /\
  (forall n, 0 < n < 2 ^ 31 -> redraws (fun st src fuel => @int31n st src fuel n)).
Proof.
  split; [|split; [|split]]; intros n Hn; eapply first_redraws; intros st src HW fuel s.
  - now apply Int63n_first.
  - now apply Int31n_first.
  - now apply Intn_first.
  - now apply int31n_first.
Qed.
Print Assumptions C77_redraws.

(** A word below 2^62 is never rejected by Int63n, Int31n and Intn. *)
Theorem C77_returns {st} (src : st -> Z * st) n s : words63 src -> 0 < n < 2 ^ 63 -> fst (src s) < 2 ^ 62 -> forall fuel,
  (exists r, Int63n src fuel n s = (Ok r, snd (src s))) /\ (n < 2 ^ 31 -> exists r, Int31n src fuel n s = (Ok r, snd (src s))) /\
  exists r, Intn src fuel n s = (Ok r, snd (src s)).
Proof.
  intros HW Hn Hs fuel. pose proof (HW s) as Hw.
  assert (HF : forall accept, (exists r, accept (fst (src s)) = Ok r) -> exists r, firstAccepted src accept fuel s = (Ok r, snd (src s))).
  { intros accept (r & E). exists r. destruct fuel; cbn [firstAccepted]; destruct (src s) as [w s1]; cbn [fst snd] in *; now rewrite E. }
  assert (H63 : exists r, accept63 n (fst (src s)) = Ok r).
  { unfold accept63. rewrite (proj2 (Z.ltb_lt _ _)); [eauto|]. pose proof (Z.div_mod (2 ^ 63) n ltac:(lia)). pose proof (Z.mod_pos_bound (2 ^ 63) n ltac:(lia)).
    assert (1 <= 2 ^ 63 / n) by (apply Z.div_le_lower_bound; lia). nia. }
  assert (H31 : n < 2 ^ 31 -> exists r, accept31 n (fst (src s)) = Ok r).
  { intros HL. unfold accept31. rewrite (proj2 (Z.ltb_lt _ _)); [eauto|]. pose proof (Z.div_mod (2 ^ 31) n ltac:(lia)). pose proof (Z.mod_pos_bound (2 ^ 31) n ltac:(lia)).
    assert (1 <= 2 ^ 31 / n) by (apply Z.div_le_lower_bound; lia).
    assert (fst (src s) / 2 ^ 32 < 2 ^ 30) by (apply Z.div_lt_upper_bound; lia). nia. }
  split; [|split].
  - rewrite Int63n_first by assumption. auto.
  - intros HL. rewrite Int31n_first by (assumption || lia). auto.
  - rewrite Intn_first by assumption. apply HF. unfold acceptN. destruct (Z.leb_spec n (2 ^ 31 - 1)); [apply H31; lia|exact H63].
Qed.
Print Assumptions C77_returns.

(** The unbounded ones use every word, and are uniform on their range. *)
Theorem C77_words {st} (src : st -> Z * st) (u : st -> Z * st) s : words63 src ->
  (exists r, Uint32 src s = (Ok r, snd (src s)) /\ 0 <= r < 2 ^ 32) /\
  (exists r, Int31 src s = (Ok r, snd (src s)) /\ 0 <= r < 2 ^ 31) /\
  Int src s = (Ok (fst (src s)), snd (src s)) /\ Int63 src s = (Ok (fst (src s)), snd (src s)) /\
  Uint64 u s = (Ok (fst (u s)), snd (u s)).
Proof.
  intros HW. pose proof (HW s) as Hw. unfold Uint32, Int31, Int, Int63, Uint64, draw, xbind, xret. split; [|split; [|split; [|split; reflexivity]]].
  - eexists. split; [reflexivity|]. apply Z.mod_pos_bound. reflexivity.
  - eexists. split; [reflexivity|]. rewrite Z.shiftr_div_pow2 by lia. apply (div_range _ 32 Hw). lia.
  - rewrite Z.mod_small by lia. rewrite Z.shiftr_div_pow2 by lia. change (2 ^ 1) with 2. now rewrite Z.div_mul by lia.
Qed.
Print Assumptions C77_words.
Theorem C77_words_uniform : equallyLikely (2 ^ 63) (2 ^ 32) (fun w => fst (Uint32 always w)) /\
  equallyLikely (2 ^ 63) (2 ^ 31) (fun w => fst (Int31 always w)).
Proof.
  split.
  - eapply likely_ext; [|change (2 ^ 63) with (2 ^ 32 * 2 ^ 31); apply likely_shift; [lia|apply (likely_mod (2 ^ 32) (2 ^ 32)); lia]].
    intros w Hw. unfold Uint32, Int63, draw, xbind, xret, always. cbn [fst]. rewrite (Z.mod_small w) by exact Hw.
    rewrite Z.shiftr_div_pow2 by lia. pose proof (div_range w 31 Hw ltac:(lia)). change (2 ^ 32 * (2 ^ 32 / 2 ^ 32)) with (2 ^ 32).
    rewrite (proj2 (Z.ltb_lt _ _)) by lia. reflexivity.
  - eapply likely_ext; [|change (2 ^ 63) with (2 ^ 31 * 2 ^ 32); apply likely_shift; [lia|apply (likely_mod (2 ^ 31) (2 ^ 31)); lia]].
    intros w Hw. unfold Int31, Int63, draw, xbind, xret, always. cbn [fst]. rewrite (Z.mod_small w) by exact Hw.
    rewrite Z.shiftr_div_pow2 by lia. pose proof (div_range w 32 Hw ltac:(lia)). change (2 ^ 31 * (2 ^ 31 / 2 ^ 31)) with (2 ^ 31).
    rewrite (proj2 (Z.ltb_lt _ _)) by lia. rewrite Z.mod_small by lia. reflexivity.
Qed.
Print Assumptions C77_words_uniform.
(** The source 0, 2^63-1, 2^63-2, ...: with the bound 2^62+1, the words from
    2^62+1 on are drawn again. *)
Definition down : Z -> Z * Z := fun s => (s mod 2 ^ 63, s - 1).
Example C77_example : words63 down /\ fst (Int63n down 0 (2 ^ 62 + 1) 0) = Ok 0 /\
  fst (Int63n down 3 (2 ^ 62 + 1) (2 ^ 62 + 3)) = Ok (2 ^ 62) /\ fst (Int63n down 0 (2 ^ 62 + 1) (2 ^ 62 + 1)) = Diverge /\
  fst (Intn down 0 6 (40 * 2 ^ 32)) = Ok 4 /\ fst (int31n down 0 6 (2 ^ 62 + 2 ^ 40)) = Ok 3 /\ fst (int31n down 0 6 (2 ^ 62)) = Diverge.
Proof. split; [intros s; apply Z.mod_pos_bound; reflexivity|]. vm_compute. repeat split. Qed.

(** *** C78: Perm(n) is a permutation of 0..n-1, whatever the source. *)
Theorem C78_perm {st} (src : st -> Z * st) fuel n s :
  (n < 0 -> exists m, Perm (Intn src fuel) n s = (Panic m, s)) /\
  (0 <= n -> match fst (Perm (Intn src fuel) n s) with Ok p => Permutation p (below n) | Panic _ => False | Diverge => True end).
Proof.
  unfold Perm. split; intros Hn.
  - rewrite (proj2 (Z.ltb_lt _ _)) by exact Hn. unfold xpanic. eauto.
  - rewrite (proj2 (Z.ltb_ge _ _)) by exact Hn. destruct (permLoop _ _ _ _ _) as [[p|m|] s'] eqn:E; cbn [fst]; [| |exact I].
    + pose proof (permLoop_run (Intn src fuel) (Z.to_nat n) [] s p s') as HR. destruct HR as (js & HD & HR); [|exact E|].
      * intros b s0 j s1 Hb Ej. eapply Intn_range; eassumption.
      * pose proof (permRun_perm js [] p (Z.to_nat n) HD HR) as [HL HP]; [constructor|]. change (zlen (@nil Z)) with 0 in HL.
        replace (zlen p) with n in HP by lia. exact HP.
    + apply (permLoop_no_panic (Intn src fuel) (Z.to_nat n) []) in E; [exact E| |].
      * intros b s0 j s1 Hb Ej. eapply Intn_range; eassumption.
      * intros b s0 e s1 Hb. now apply Intn_panic.
Qed.
Print Assumptions C78_perm.

(** Uniform: Perm draws numbers below 1, 2, ..., n, and each permutation comes
    from exactly one choice of them. *)
Theorem C78_perm_uniform n : 0 <= n -> let bounds := map (fun i => i + 1) (below n) in
  (forall js, draws bounds js -> exists p, Perm scripted n (combine bounds js) = (Ok p, []) /\ Permutation p (below n)) /\
  (forall p, Permutation p (below n) -> exists js,
     (draws bounds js /\ Perm scripted n (combine bounds js) = (Ok p, [])) /\
     forall js', draws bounds js' -> Perm scripted n (combine bounds js') = (Ok p, []) -> js' = js).
Proof.
  intros Hn bounds. subst bounds. rewrite <- boundsFrom_below. unfold Perm. rewrite (proj2 (Z.ltb_ge _ _)) by exact Hn.
  assert (HS : forall js, draws (boundsFrom 0 (Z.to_nat n)) js ->
    exists r, permRun js [] r /\ permLoop scripted (Z.to_nat n) 0 (repeat 0 (Z.to_nat n)) (combine (boundsFrom 0 (Z.to_nat n)) js) = (Ok r, [])).
  { intros js HD. destruct (permLoop_scripted (Z.to_nat n) [] js HD) as (r & HR & E). eauto. }
  split.
  - intros js HD. destruct (HS js HD) as (p & HR & E). exists p. split; [exact E|].
    destruct (permRun_perm js [] p (Z.to_nat n) HD HR (perm_nil _)) as [HL HP]. change (zlen (@nil Z)) with 0 in HL.
    replace (zlen p) with n in HP by lia. exact HP.
  - intros p HP. destruct (perm_unique (Z.to_nat n) p) as (js & HD & HR & HU); [rewrite Z2Nat.id by exact Hn; exact HP|].
    exists js. split.
    + split; [exact HD|]. destruct (HS js HD) as (r & HR' & E). now rewrite (permRun_det _ _ _ _ HR HR').
    + intros js' HD' E'. apply HU; [exact HD'|]. destruct (HS js' HD') as (r & HR' & E). rewrite E' in E. injection E as ->. exact HR'.
Qed.
Print Assumptions C78_perm_uniform.

(** Shuffle(n, swap) calls swap(n-1, j), ..., swap(1, j) with 0 <= j <= i for
    each swap(i, j), so that with a swap that exchanges two elements of a slice of
    length at least n the slice is rearranged. *)
Theorem C78_shuffle {st D} (src : st -> Z * st) (swap : Z -> Z -> D -> D) fuel n s d : words63 src -> n < 2 ^ 63 ->
  let run := Shuffle (fun b => onFst (Int63n src fuel b)) (fun b => onFst (int31n src fuel b)) n (fun i j => onSnd (swap i j)) (s, d) in
  (n < 0 -> exists m, run = (Panic m, (s, d))) /\
  (0 <= n -> match run with
             | (Ok _, (_, d')) => exists js, draws (downTo2 n) js /\ d' = swaps swap n js d
             | (Panic _, _) => False
             | (Diverge, _) => True
             end).
Proof.
  intros HW HM. unfold Shuffle. split; intros Hn.
  - rewrite (proj2 (Z.ltb_lt _ _)) by exact Hn. unfold xpanic. eauto.
  - rewrite (proj2 (Z.ltb_ge _ _)) by exact Hn. destruct (Z.eq_dec n 0) as [->|N0].
    { cbn. exists []. split; [constructor|reflexivity]. }
    assert (Hb : forall b s0 j s1, 2 ^ 31 <= b -> Int63n src fuel b s0 = (Ok j, s1) -> 0 <= j < b).
    { intros b s0 j s1 Hb E. eapply Int63n_range; [lia|exact E]. }
    assert (Hs : forall b s0 j s1, 0 < b < 2 ^ 31 -> int31n src fuel b s0 = (Ok j, s1) -> 0 <= j < b).
    { intros b s0 j s1 Hb' E. eapply int31n_range; eassumption. }
    remember (Z.to_nat (n - 1)) as k eqn:Ek. replace (n - 1) with (Z.of_nat k) by lia. destruct (shuffleLoop _ _ _ _ _ _) as [[[]|m|] [s' d']] eqn:E; [| |exact I].
    + apply shuffleLoop_run in E as (js & HD & ES); [|exact Hb|exact Hs]. exists js. cbn [snd] in ES.
      replace (Z.of_nat k + 1) with n in * by lia. auto.
    + apply shuffleLoop_no_panic in E; [exact E|exact Hb|exact Hs| |].
      * intros b s0 e s1 H1. apply Int63n_panic. lia.
      * intros b s0 e s1 H1. now apply int31n_panic.
Qed.
Print Assumptions C78_shuffle.
(** Shuffle asks for numbers below n, n-1, ..., 2, and uses each of them. *)
Theorem C78_shuffle_draws {D} (swap : Z -> Z -> D -> D) n js d : 0 < n -> draws (downTo2 n) js ->
  Shuffle (fun b => onFst (scripted b)) (fun b => onFst (scripted b)) n (fun i j => onSnd (swap i j)) (combine (downTo2 n) js, d)
  = (Ok tt, ([], swaps swap n js d)).
Proof.
  intros Hn HD. unfold Shuffle. rewrite (proj2 (Z.ltb_ge _ _)) by lia. remember (Z.to_nat (n - 1)) as k eqn:Ek.
  replace (n - 1) with (Z.of_nat k) by lia. replace n with (Z.of_nat k + 1) in * by lia. now apply shuffle_scripted.
Qed.
Print Assumptions C78_shuffle_draws.
(** Each rearrangement comes from exactly one choice of these numbers. *)
Theorem C78_shuffle_uniform {A} (l : list A) : 0 < zlen l ->
  (forall js, draws (downTo2 (zlen l)) js -> Permutation (swaps exchange (zlen l) js l) l) /\
  (NoDup l -> forall p, Permutation p l -> exists js,
     (draws (downTo2 (zlen l)) js /\ swaps exchange (zlen l) js l = p) /\
     forall js', draws (downTo2 (zlen l)) js' -> swaps exchange (zlen l) js' l = p -> js' = js).
Proof.
  intros HL. replace (zlen l) with (Z.of_nat (Z.to_nat (zlen l - 1)) + 1) by lia. split.
  - intros js HD. apply swaps_perm; [lia|exact HD].
  - intros HN p HP. destruct (shuffle_unique (Z.to_nat (zlen l - 1)) l p) as (js & H1 & H2 & H3); [lia|exact HN|exact HP|]. eauto.
Qed.
Print Assumptions C78_shuffle_uniform.
Definition multiples : Z -> Z * Z := fun s => (s * 0x5851f42d4c957f2d mod 2 ^ 63, s + 1).
Example C78_example : words63 multiples /\
  Perm (Intn multiples 0) 5 3 = (Ok [0; 4; 2; 3; 1], 8) /\ Perm (Intn multiples 0) 5 7 = (Ok [4; 0; 2; 1; 3], 12) /\
  Perm scripted 4 [(1, 0); (2, 0); (3, 2); (4, 1)] = (Ok [1; 3; 2; 0], []) /\
  swaps exchange 4 [1; 0; 1] ["a"; "b"; "c"; "d"] = ["c"; "d"; "a"; "b"] /\ draws (downTo2 4) [1; 0; 1].
Proof.
  split; [intros s; apply Z.mod_pos_bound; reflexivity|]. do 4 (split; [reflexivity|]).
  change (downTo2 4) with [4; 3; 2]. repeat constructor; lia.
Qed.

(** *** C79: Read fills the slice with seven bytes of each word, the lowest
    first; a byte stream does not depend on how it is cut into reads. *)
Theorem C79_read {st} (src : st -> Z * st) len s :
  fst (Read src len (newReader s)) = map (fun k => word src (k / 7) s / 256 ^ Z.of_nat (k mod 7) mod 256) (seq 0 len).
Proof.
  rewrite Read_bytes by (cbn; lia). apply map_ext. intros k. unfold byteOf, newReader. cbn [readPos source]. change (Z.to_nat 0) with 0%nat.
  cbn [Nat.ltb Nat.leb]. now rewrite Nat.sub_0_r.
Qed.
Print Assumptions C79_read.
Theorem C79_read_chunks {st} (src : st -> Z * st) a b r :
  fst (Read src (a + b) r) = fst (Read src a r) ++ fst (Read src b (snd (Read src a r))) /\
  snd (Read src (a + b) r) = snd (Read src b (snd (Read src a r))).
Proof. now rewrite Read_app. Qed.
Print Assumptions C79_read_chunks.

(** Float64 and Float32 give a number of 53 or 24 bits, at least 0 and below 1
    (that is, with numerator over 2^63 below 2^63), and return at once if the word
    is below 2^62. *)
Theorem C79_floats {st} (src : st -> Z * st) fuel fuel' s : words63 src ->
  match fst (Float64 src fuel s) with Ok f => 0 <= f < 2 ^ 63 /\ significant 53 f | Panic _ => False | Diverge => True end /\
  match fst (Float32 src fuel fuel' s) with Ok f => 0 <= f < 2 ^ 63 /\ significant 24 f | Panic _ => False | Diverge => True end /\
  (fst (src s) < 2 ^ 62 -> (exists f, Float64 src fuel s = (Ok f, snd (src s))) /\ exists f, Float32 src fuel fuel' s = (Ok f, snd (src s))).
Proof.
  intros HW. split; [|split].
  - destruct (Float64 src fuel s) as [r s'] eqn:E. cbn [fst]. eapply Float64_range; eassumption.
  - destruct (Float32 src fuel fuel' s) as [r s'] eqn:E. cbn [fst]. eapply Float32_range; eassumption.
  - intros H. split; [|now apply Float32_returns]. destruct (Float64_returns src HW fuel s H) as (f & E & _). eauto.
Qed.
Print Assumptions C79_floats.
(** Float64 is the next word over 2^63 rounded to a float64, Float32 is this
    rounded again to a float32; words that are rounded to 1 are passed over. *)
Theorem C79_nearest {st} (src : st -> Z * st) fuel fuel' s f s' : words63 src ->
  (Float64 src fuel s = (Ok f, s') -> exists i,
     nearest 53 (word src i s) f /\ f < 2 ^ 63 /\
     (forall j, (j < i)%nat -> nearest 53 (word src j s) (2 ^ 63)) /\
     forall j, word src j s' = word src (i + 1 + j) s) /\
  (Float32 src fuel fuel' s = (Ok f, s') -> exists i d,
     nearest 53 (word src i s) d /\ nearest 24 d f /\ f < 2 ^ 63 /\
     (forall j, (j < i)%nat -> nearest 53 (word src j s) (2 ^ 63) \/
        exists d', nearest 53 (word src j s) d' /\ nearest 24 d' (2 ^ 63)) /\
     forall j, word src j s' = word src (i + 1 + j) s).
Proof.
  intros HW. split; intros H.
  - destruct (Float64_word src HW _ _ _ _ H) as (i & _ & H1 & H2 & H3).
    pose proof (Float64_range src HW _ _ _ _ H) as HR. cbn in HR. exists i. split; [exact H1|]. tauto.
  - destruct (Float32_word src HW _ _ _ _ _ H) as (i & d & H0 & H1 & H2 & H3).
    pose proof (Float32_range src HW _ _ _ _ _ H) as HR. cbn in HR. exists i, d. split; [exact H0|]. split; [exact H1|]. tauto.
Qed.
Print Assumptions C79_nearest.
(** [nearest] leaves one choice: half way between two floats it is the even one. *)
Example C79_nearest_case : nearest 3 9 8 /\ nearest 3 11 12 /\ ~ nearest 3 9 10 /\ ~ nearest 3 11 10.
Proof.
  assert (H10 : significant 3 10) by (exists 5, 1; lia).
  assert (H8 : significant 3 8) by (exists 1, 3; lia).
  assert (H12 : significant 3 12) by (exists 3, 2; lia).
  split; [apply (round_nearest 3 9); lia|]. split; [apply (round_nearest 3 11); lia|].
  assert (N : ~ significant (3 - 1) 10).
  { intros (m & e & He & Hm & E). cbn in Hm. assert (m = 0 \/ m = 1 \/ m = 2 \/ m = 3) as [-> | [-> | [-> | ->]]] by lia; [lia| | |lia].
    - assert (e < 4) by (apply (Z.pow_lt_mono_r_iff 2); cbn; lia). assert (e = 0 \/ e = 1 \/ e = 2 \/ e = 3) as [-> | [-> | [-> | ->]]] by lia; cbn in E; lia.
    - assert (e < 4) by (apply (Z.pow_lt_mono_r_iff 2); cbn; lia). assert (e = 0 \/ e = 1 \/ e = 2 \/ e = 3) as [-> | [-> | [-> | ->]]] by lia; cbn in E; lia. }
  split; intros [_ H].
  - destruct (H 8 H8) as [_ [E|E]]; [reflexivity|lia|contradiction].
  - destruct (H 12 H12) as [_ [E|E]]; [reflexivity|lia|contradiction].
Qed.
(** The words 2^63-1, ..., 2^63-512 are drawn again by Float64: they are rounded to 1. *)
Example C79_example :
  fst (Read down 9 (newReader 0x0102030405060708)) = [8; 7; 6; 5; 4; 3; 2; 7; 7] /\
  fst (Float64 down 0 (2 ^ 63 - 512)) = Diverge /\ fst (Float64 down 1 (2 ^ 63 - 512)) = Ok (2 ^ 63 - 1024) /\
  fst (Float64 down 0 (2 ^ 61)) = Ok (2 ^ 61) /\ fst (Float32 down 0 0 (2 ^ 61 + 1)) = Ok (2 ^ 61).
Proof. vm_compute. repeat split. Qed.
