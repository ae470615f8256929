(** C23: the schedule produced by revolve. *)
From Coq Require Import ZArith Arith List Bool Lia.
From Verif Require Import RevModel RevSpec RevProofs RevInv.
Import ListNotations.
Local Open Scope Z_scope.

Lemma last_any : forall {A} (l : list A) e d d', last (e :: l) d = last (e :: l) d'.
Proof. induction l as [|x l IH]; intros e d d'; [reflexivity|]. cbn [last]. apply (IH x). Qed.
Lemma run_to_end : forall snaps steps, 1 <= snaps <= ADOLC_CHECKUP -> 1 <= steps -> steps * (ADOLC_CHECKUP + ADOLC_REPSUP) <= MAXINT ->
  forall n b s m v u, Inv snaps steps b s m v -> mu b s v <= Z.of_nat n -> tracks s m u ->
  exists l u', (forall k, calls (S n + k) snaps s m = Some l) /\ acts steps snaps l u = Some u' /\ finished u' = true /\
    moved u' = moved u + v /\ (length l <= S n)%nat /\ (exists s', last l (error, s) = (terminate, s') /\ check s' = -2 /\ info s' = info s).
Proof.
  intros snaps steps A B C. induction n as [|n IH]; intros b s m v u H M U.
  - destruct (progress snaps steps A C b s m v H) as [(E1 & E2 & E3 & E4)|G].
    + destruct (call_done snaps s m E1 E2) as [m' E].
      exists [(terminate, mk_args (-2) (capo s) (fine s) (info s))].
      destruct U as (U1 & U2 & _). eexists. split; [|split; [|split; [|split; [|split]]]].
      * intros k. cbn [calls Nat.add]. now rewrite E.
      * cbn [acts act]. rewrite U2, U1, E3. cbn [Z.eqb]. reflexivity.
      * reflexivity.
      * cbn [moved]. lia.
      * cbn. lia.
      * eexists. split; [reflexivity|]. split; reflexivity.
    + exfalso. destruct G as (a & s' & m' & b' & v' & _ & _ & _ & _ & I' & Mu & _).
      pose proof (Inv_range snaps steps A _ _ _ _ I'). unfold mu in *. destruct b'; lia.
  - destruct (progress snaps steps A C b s m v H) as [(E1 & E2 & E3 & E4)|G].
    + destruct (call_done snaps s m E1 E2) as [m' E].
      exists [(terminate, mk_args (-2) (capo s) (fine s) (info s))].
      destruct U as (U1 & U2 & _). eexists. split; [|split; [|split; [|split; [|split]]]].
      * intros k. cbn [calls Nat.add]. now rewrite E.
      * cbn [acts act]. rewrite U2, U1, E3. cbn [Z.eqb]. reflexivity.
      * reflexivity.
      * cbn [moved]. lia.
      * cbn. lia.
      * eexists. split; [reflexivity|]. split; reflexivity.
    + destruct G as (a & s' & m' & b' & v' & E & N1 & N2 & _ & I' & Mu & Ei & G).
      destruct (G u U) as (u1 & A1 & U1 & V1).
      destruct (IH b' s' m' v' u1 I' ltac:(lia) U1) as (l & u' & K & Ac & Fi & Mo & Le & s'' & La & Ch & In).
      exists ((a, s') :: l), u'. split; [|split; [|split; [|split; [|split]]]].
      * intros k. replace (S (S n) + k)%nat with (S (S n + k)) by lia. cbn [calls]. rewrite E. rewrite K.
        destruct a; try reflexivity; contradiction.
      * cbn [acts]. now rewrite A1.
      * exact Fi.
      * lia.
      * cbn. lia.
      * exists s''. destruct l as [|e l]; [cbn in La; congruence|]. split; [|split; [exact Ch|congruence]].
        transitivity (last (e :: l) (error, s)); [reflexivity|]. rewrite (last_any l e _ (error, s')). exact La.
Qed.

Lemma start_inv : forall snaps steps info m, 1 <= snaps <= ADOLC_CHECKUP -> 1 <= steps -> forall v, T steps snaps v ->
  Inv snaps steps true (first steps info) m v.
Proof.
  intros snaps steps inf m A B v Tv. split.
  - unfold off, first. cbn [check capo fine]. split; [lia|]. split; [lia|]. exists 0, v. split; [cbn; split; reflexivity|].
    split; [right; split; [lia|]|lia]. replace (steps - 0) with steps by lia. replace (snaps - (-1 + 1)) with snaps by lia. exact Tv.
  - split; [cbn; lia|]. left. cbn. lia.
Qed.

(** For every number of steps and of snapshots (within the documented limits), whatever
    the bookkeeping object contains from earlier uses: following the returned actions,
    a caller reaches terminate, every action could be carried out, all steps have been
    reversed, and the number of forward steps is the one numforw predicts.  No call
    overflows or returns error. *)
Theorem C23_schedule : forall snaps steps info m,
  1 <= snaps <= ADOLC_CHECKUP -> 1 <= steps -> within steps snaps ADOLC_REPSUP ->
  steps * (ADOLC_CHECKUP + ADOLC_REPSUP) <= MAXINT ->
  exists n l u, (forall k, calls (n + k) snaps (first steps info) m = Some l) /\
    acts steps snaps l (fresh steps) = Some u /\ finished u = true /\ left u = 0 /\
    numforw steps snaps = Some (moved u) /\
    Z.of_nat (length l) <= 2 * (moved u + steps) + 2.
Proof.
  intros snaps steps inf m A B W O. apply within_B in W; [|lia|unfold ADOLC_REPSUP; lia].
  destruct (numforw_T snaps steps A O steps ltac:(lia) W) as (v & E & Tv).
  pose proof (start_inv snaps steps inf m A B v Tv) as I.
  pose proof (T_nonneg steps snaps v ltac:(lia) B Tv) as V.
  destruct (run_to_end snaps steps A B O (Z.to_nat (mu true (first steps inf) v)) true (first steps inf) m v (fresh steps) I) as (l & u & K & Ac & Fi & Mo & Le & s' & La & Ch & In).
  - unfold mu. cbn [fine first]. lia.
  - unfold tracks, fresh, first. cbn. repeat split; intros; lia.
  - exists (S (Z.to_nat (mu true (first steps inf) v))), l, u. split; [exact K|]. split; [exact Ac|]. split; [exact Fi|].
    split; [|split].
    + (* the last action was terminate *)
      clear -Ac La. revert Ac. generalize (fresh steps) as w. 
      assert (forall (l : list event) w d, last l d = (terminate, s') -> d <> (terminate, s') -> acts steps snaps l w = Some u -> left u = 0) as H.
      { clear. induction l as [|e l IH]; intros w d L D H; [cbn in L; contradiction|].
        cbn [acts] in H. destruct (act steps snaps e w) as [w'|] eqn:Ea; [|discriminate].
        destruct l as [|e' l].
        - cbn in L. subst e. cbn [acts] in H. injection H as ->. unfold act in Ea. destruct (finished w); [discriminate|].
          destruct (Z.eqb_spec (left w) 0); [|discriminate]. injection Ea as <-. exact e.
        - exact (IH w' d L D H). }
      intros w Ac. apply (H l w (error, first steps inf)); [exact La|discriminate|exact Ac].
    + cbn [fresh moved] in Mo. rewrite E. f_equal. lia.
    + cbn [fresh moved] in Mo. unfold mu in Le. cbn [fine first] in Le. lia.
Qed.

(** numforw, and hence the schedule, is optimal: no way of placing at most snaps
    snapshots needs fewer forward steps; and its value can be reached *)
Theorem C23_optimal : forall snaps steps,
  1 <= snaps <= ADOLC_CHECKUP -> 1 <= steps -> within steps snaps ADOLC_REPSUP ->
  steps * (ADOLC_CHECKUP + ADOLC_REPSUP) <= MAXINT ->
  exists w, numforw steps snaps = Some w /\ feasible steps snaps w /\ forall v, feasible steps snaps v -> w <= v.
Proof.
  intros snaps steps A B W O. apply within_B in W; [|lia|unfold ADOLC_REPSUP; lia].
  destruct (numforw_T snaps steps A O steps ltac:(lia) W) as (v & E & Tv).
  exists v. split; [exact E|]. split; [|intros w F; exact (T_optimal steps snaps w F v Tv)].
  assert (forall n l c w, (Z.to_nat l <= n)%nat -> 0 <= c <= ADOLC_CHECKUP -> 1 <= l <= steps -> T l c w -> feasible l c w) as H.
  { clear snaps A W v E Tv. induction n as [|n IH]; intros l c w N C L Tw; [lia|].
    destruct (Z.eq_dec l 1) as [->|Nl].
    - rewrite (T_one c w) by (try lia; assumption). constructor. lia.
    - assert (1 <= c) as C1 by (apply (T_slots l c w); [lia|lia|exact Tw]).
      assert (l * (ADOLC_CHECKUP + ADOLC_REPSUP) <= MAXINT) as O'.
      { etransitivity; [|exact O]. apply Z.mul_le_mono_nonneg_r; [unfold ADOLC_CHECKUP, ADOLC_REPSUP; lia|lia]. }
      destruct (expand_from_0 l c ltac:(lia) ltac:(lia) (T_bound _ _ _ Tw) O') as (r & _ & R & L2 & L1).
      assert (1 <= r) as R1 by (destruct (Z.eq_dec r 0) as [->|]; [rewrite B_0_r in L2 by lia; lia|lia]).
      destruct (bino r (RevProofs.B c r) c 0 l) as [c1|] eqn:Eb.
      2: { rewrite bino_values in Eb; [discriminate|lia|lia|]. etransitivity; [|exact O'].
           apply Z.mul_le_mono_nonneg_r; [unfold ADOLC_CHECKUP, ADOLC_REPSUP; lia|]. destruct L1; lia. }
      destruct (split_ok l c w r 0 l c1 ltac:(lia) ltac:(lia) ltac:(lia) R L2 L1 Tw O' Eb) as (w1 & w2 & S1 & S2 & S3 & S4).
      set (c2 := if c1 =? 0 then 0 + 1 else c1) in *. replace (c2 - 0) with c2 in * by lia.
      replace w with (c2 + w2 + w1) by lia. apply feasible_split; try lia.
      + apply IH; try lia. exact S3.
      + apply IH; try lia. exact S2. }
  apply (H (Z.to_nat steps)); try lia. exact Tv.
Qed.

(** more steps than (snaps + 1000)! / (snaps! 1000!) are refused (info 15) at the second
    call, unless the int arithmetic overflows *)
Lemma expand_result : forall fuel l ds r r' rng', 1 <= ds -> 0 <= r -> expand fuel l ds r (RevProofs.B ds r) = Some (r', rng') ->
  l <= RevProofs.B ds r'.
Proof.
  induction fuel as [|fuel IH]; intros l ds r r' rng' D R H; cbn [expand] in H; destruct (Z.ltb_spec (RevProofs.B ds r) l) as [L|L]; try discriminate.
  - injection H as <- <-. exact L.
  - destruct (int (RevProofs.B ds r * (r + 1 + ds))) as [p|] eqn:E; [|discriminate].
    unfold int in E. destruct (Z.abs (RevProofs.B ds r * (r + 1 + ds)) <=? MAXINT); [|discriminate]. injection E as <-.
    pose proof (B_step_r ds (r + 1) ltac:(lia) ltac:(lia)) as S'. replace (r + 1 - 1) with r in S' by lia.
    rewrite (quot_exact _ (r + 1) (RevProofs.B ds (r + 1))) in H by (try lia; rewrite S'; ring).
    apply (IH l ds (r + 1) r' rng'); try lia. exact H.
  - injection H as <- <-. exact L.
Qed.
Theorem C23_too_many_steps : forall snaps steps m s1 m1 a s2 m2,
  1 <= snaps <= ADOLC_CHECKUP -> 1 < steps -> ~ within steps snaps ADOLC_REPSUP ->
  revolve snaps (first steps 0) m = Some (takeshot, s1, m1) -> revolve snaps s1 m1 = Some (a, s2, m2) ->
  a = error /\ info s2 = 15.
Proof.
  intros snaps steps m s1 m1 a s2 m2 A B W E1 E2.
  rewrite within_B in W by (unfold ADOLC_REPSUP; lia).
  (* the first call *)
  unfold revolve in E1. cbn [check capo fine info first] in E1. rewrite Z.gtb_ltb in E1.
  destruct (Z.ltb_spec (-1) (-1)); [lia|]. destruct (Z.ltb_spec steps 0); [lia|]. cbn [orb] in E1.
  unfold body in E1. cbv zeta in E1. cbn [check capo fine info first] in E1. rewrite !Z.gtb_ltb, Z.geb_leb in E1.
  destruct (Z.eqb_spec (steps - 0) 0); [lia|]. destruct (Z.eqb_spec (steps - 0) 1); [lia|].
  cbn [Z.eqb] in E1. change (-1 + 1) with 0 in E1. destruct (Z.leb_spec ADOLC_CHECKUP 0); [lia|].
  destruct (Z.ltb_spec snaps (0 + 1)); [lia|]. cbn [Z.eqb] in E1. destruct (Z.ltb_spec ADOLC_CHECKUP snaps); [lia|].
  change (0 <? 0) with false in E1. cbv iota in E1. unfold ret in E1. injection E1 as <- <-.
  unfold revolve in E2. cbn [check capo fine info] in E2. rewrite Z.gtb_ltb in E2.
  destruct (Z.ltb_spec 0 (-1)); [lia|]. destruct (Z.ltb_spec steps 0); [lia|]. cbn [orb] in E2.
  unfold body in E2. cbv zeta in E2. cbn [check capo fine info] in E2. unfold prologue in E2. cbn [check Z.eqb andb count ch oldfine oldsnaps] in E2.
  destruct (Z.eqb_spec (steps - 0) 0); [lia|]. destruct (Z.eqb_spec (steps - 0) 1); [lia|].
  change (slot 0) with (Some tt) in E2. cbv iota in E2. rewrite put_at in E2. cbn [Z.eqb negb] in E2.
  rewrite Z.ltb_irrefl in E2. cbn [andb] in E2. destruct (Z.ltb_spec (snaps - 0) 1); [lia|].
  destruct (expand (Z.to_nat (steps - 0)) (steps - 0) (snaps - 0) 0 1) as [[r rng]|] eqn:Ee; [|discriminate].
  assert (ADOLC_REPSUP < r) as R.
  { replace (steps - 0) with steps in Ee by lia. replace (snaps - 0) with snaps in Ee by lia.
    replace (expand (Z.to_nat steps) steps snaps 0 1) with (expand (Z.to_nat steps) steps snaps 0 (RevProofs.B snaps 0)) in Ee by (rewrite B_0_r by lia; reflexivity).
    apply expand_result in Ee; try lia. destruct (Z_lt_dec ADOLC_REPSUP r); [assumption|exfalso].
    pose proof (B_mono_r snaps r ADOLC_REPSUP ltac:(lia)). lia. }
  rewrite Z.gtb_ltb in E2. rewrite (proj2 (Z.ltb_lt _ _)) in E2 by exact R. unfold ret in E2. injection E2 as <- <- _. split; reflexivity.
Qed.

(** The limit on the number of steps in C23_schedule is needed: for 7000000 steps and 3
    snapshots (24 times fewer than maxrange(3, 1000)) the second call multiplies
    beyond the range of int *)
Theorem C23_overflow_refuted : exists snaps steps m s1 m1,
  1 <= snaps <= ADOLC_CHECKUP /\ 1 <= steps <= maxrange snaps 1000 /\
  revolve snaps (first steps 0) m = Some (takeshot, s1, m1) /\ revolve snaps s1 m1 = None.
Proof.
  exists 3, 7000000, (mk_nums 0 0 0 0 0 0 (fun _ => 0) 0 0). eexists. eexists.
  split; [unfold ADOLC_CHECKUP; lia|]. split; [vm_compute; split; congruence|].
  split; [reflexivity|]. vm_compute. reflexivity.
Qed.

(** maxrange is the binomial coefficient, cut off at the largest int *)
Theorem C23_maxrange : forall ss tt, 0 <= ss -> 0 <= tt ->
  exists b, is_binomial ss tt b /\ maxrange ss tt = Z.min b MAXINT.
Proof.
  intros ss tt S' T'. exists (RevProofs.B ss tt). split; [now apply is_binomial_B|].
  unfold maxrange. destruct (Z.ltb_spec tt 0); [lia|]. destruct (Z.ltb_spec ss 0); [lia|]. cbn [orb].
  assert (forall n i, 1 <= i -> RevProofs.B ss (i - 1) <= MAXINT -> maxrange_loop n ss i (RevProofs.B ss (i - 1)) = Z.min (RevProofs.B ss (i - 1 + Z.of_nat n)) MAXINT) as H1.
  { induction n as [|n IH]; intros i I L; cbn [maxrange_loop].
    - rewrite Z.add_0_r. lia.
    - rewrite (quot_exact _ i (RevProofs.B ss i)) by (try lia; rewrite (B_step_r ss i) by lia; ring).
      rewrite Z.gtb_ltb. destruct (Z.ltb_spec MAXINT (RevProofs.B ss i)) as [G|G].
      + pose proof (B_mono_r ss i (i - 1 + Z.of_nat (S n)) ltac:(lia)). lia.
      + specialize (IH (i + 1) ltac:(lia)). replace (i + 1 - 1) with i in IH by lia. rewrite IH by assumption. f_equal. f_equal. lia. }
  specialize (H1 (Z.to_nat tt) 1 ltac:(lia)). change (1 - 1) with 0 in H1. rewrite B_0_r in H1 by lia.
  rewrite H1 by (unfold MAXINT; lia). f_equal. f_equal. lia.
Qed.

(** ** A concrete case: 10 steps, 3 snapshots *)
Definition zero_nums : nums := mk_nums 0 0 0 0 0 0 (fun _ => 0) 0 0.
Theorem C23_nontrivial : within 10 3 ADOLC_REPSUP /\ numforw 10 3 = Some 15 /\
  exists l, calls 100 3 (first 10 0) zero_nums = Some l /\ (length l <= 40)%nat /\
    map fst (firstn 6 l) = [takeshot; advance; takeshot; advance; takeshot; advance].
Proof.
  split; [|split].
  - apply within_B; try (unfold ADOLC_REPSUP; lia).
    etransitivity; [|apply (B_mono_r 3 2)]; [vm_compute; congruence|unfold ADOLC_REPSUP; lia].
  - vm_compute. reflexivity.
  - eexists. split; [vm_compute; reflexivity|]. split; [cbn; lia|reflexivity].
Qed.
