(** Binomial coefficients, the split computed by revolve, and its cost. *)
From Coq Require Import ZArith Arith List Bool Lia Factorial.
From Verif Require Import RevModel RevSpec.
Import ListNotations.
Local Open Scope Z_scope.

(** ** Binomial coefficients beta(c, r) = (c + r)! / (c! r!) *)
Fixpoint beta (c : nat) : nat -> nat :=
  match c with
  | O => fun _ => 1%nat
  | S c' => fix b (r : nat) : nat := match r with O => 1%nat | S r' => (beta c' (S r') + b r')%nat end
  end.
Lemma beta_0_l : forall r, beta 0 r = 1%nat.
Proof. reflexivity. Qed.
Lemma beta_0_r : forall c, beta c 0 = 1%nat.
Proof. destruct c; reflexivity. Qed.
Lemma beta_S : forall c r, beta (S c) (S r) = (beta c (S r) + beta (S c) r)%nat.
Proof. reflexivity. Qed.
Lemma beta_fact : forall c r, (beta c r * (fact c * fact r) = fact (c + r))%nat.
Proof.
  induction c as [|c IHc]; intros r.
  - rewrite beta_0_l. cbn [fact Nat.add]. lia.
  - induction r as [|r IHr].
    + rewrite beta_0_r, Nat.add_0_r. cbn [fact]. lia.
    + rewrite beta_S. specialize (IHc (S r)).
      replace (S c + S r)%nat with (S (c + S r)) by lia. 
      assert (fact (S (c + S r)) = (S (c + S r) * fact (c + S r))%nat) as -> by reflexivity.
      replace (S c + r)%nat with (c + S r)%nat in IHr by lia.
      assert (fact (S r) = (S r * fact r)%nat) as Er by reflexivity.
      assert (fact (S c) = (S c * fact c)%nat) as Ec by reflexivity.
      rewrite Nat.mul_add_distr_r.
      replace (beta c (S r) * (fact (S c) * fact (S r)))%nat with (S c * (beta c (S r) * (fact c * fact (S r))))%nat by (rewrite Ec; ring).
      rewrite IHc.
      replace (beta (S c) r * (fact (S c) * fact (S r)))%nat with (S r * (beta (S c) r * (fact (S c) * fact r)))%nat by (rewrite Er; ring).
      rewrite IHr. rewrite <- Nat.mul_add_distr_r. try (f_equal; lia).
Qed.

Definition B (c r : Z) : Z := if (c <? 0) || (r <? 0) then 0 else Z.of_nat (beta (Z.to_nat c) (Z.to_nat r)).
Lemma B_neg_l : forall c r, c < 0 -> B c r = 0.
Proof. intros. unfold B. now rewrite (proj2 (Z.ltb_lt c 0)). Qed.
Lemma B_neg_r : forall c r, r < 0 -> B c r = 0.
Proof. intros. unfold B. rewrite (proj2 (Z.ltb_lt r 0)) by assumption. now rewrite orb_true_r. Qed.
Lemma B_pos_eq : forall c r, 0 <= c -> 0 <= r -> B c r = Z.of_nat (beta (Z.to_nat c) (Z.to_nat r)).
Proof. intros. unfold B. destruct (Z.ltb_spec c 0), (Z.ltb_spec r 0); try lia; reflexivity. Qed.
Lemma B_0_l : forall r, 0 <= r -> B 0 r = 1.
Proof. intros. rewrite B_pos_eq by lia. reflexivity. Qed.
Lemma B_0_r : forall c, 0 <= c -> B c 0 = 1.
Proof. intros. rewrite B_pos_eq by lia. now rewrite beta_0_r. Qed.
Lemma B_pascal : forall c r, 0 <= c -> 0 <= r -> 0 < c + r -> B c r = B (c - 1) r + B c (r - 1).
Proof.
  intros c r C R P. destruct (Z.eq_dec c 0) as [->|Nc].
  - rewrite (B_neg_l (0 - 1)), !B_0_l by lia. reflexivity.
  - destruct (Z.eq_dec r 0) as [->|Nr].
    + rewrite (B_neg_r c (0 - 1)) by lia. rewrite !B_0_r by lia. reflexivity.
    + rewrite !B_pos_eq by lia. replace (Z.to_nat c) with (S (Z.to_nat (c - 1))) by lia.
      replace (Z.to_nat r) with (S (Z.to_nat (r - 1))) by lia. rewrite beta_S. lia.
Qed.
Lemma beta_pos : forall c r, (1 <= beta c r)%nat.
Proof.
  induction c as [|c IHc]; intros r; [now rewrite beta_0_l|].
  induction r as [|r IHr]; [now rewrite beta_0_r|]. rewrite beta_S. specialize (IHc (S r)). lia.
Qed.
Lemma B_pos : forall c r, 0 <= c -> 0 <= r -> 1 <= B c r.
Proof. intros. rewrite B_pos_eq by assumption. pose proof (beta_pos (Z.to_nat c) (Z.to_nat r)). lia. Qed.
Lemma B_nonneg : forall c r, 0 <= B c r.
Proof. intros. unfold B. destruct ((c <? 0) || (r <? 0)); lia. Qed.
Lemma B_mono_r1 : forall c r, B c (r - 1) <= B c r.
Proof.
  intros c r. destruct (Z_lt_dec c 0); [rewrite !B_neg_l by lia; lia|].
  destruct (Z_le_dec r 0).
  - rewrite (B_neg_r c (r - 1)) by lia. apply B_nonneg.
  - rewrite (B_pascal c r) by lia. pose proof (B_nonneg (c - 1) r). lia.
Qed.
Lemma B_mono_c1 : forall c r, B (c - 1) r <= B c r.
Proof.
  intros c r. destruct (Z_lt_dec r 0); [rewrite !B_neg_r by lia; lia|].
  destruct (Z_le_dec c 0).
  - rewrite (B_neg_l (c - 1)) by lia. apply B_nonneg.
  - rewrite (B_pascal c r) by lia. pose proof (B_nonneg c (r - 1)). lia.
Qed.
Lemma B_mono_r : forall c r r', r <= r' -> B c r <= B c r'.
Proof.
  intros c r r' H. replace r' with (r + Z.of_nat (Z.to_nat (r' - r))) by lia.
  generalize (Z.to_nat (r' - r)). induction n as [|n IH]; [rewrite Z.add_0_r; lia|].
  etransitivity; [exact IH|]. pose proof (B_mono_r1 c (r + Z.of_nat (S n))) as M.
  replace (r + Z.of_nat (S n) - 1) with (r + Z.of_nat n) in M by lia. exact M.
Qed.
Lemma B_mono_c : forall c c' r, c <= c' -> B c r <= B c' r.
Proof.
  intros c c' r H. replace c' with (c + Z.of_nat (Z.to_nat (c' - c))) by lia.
  generalize (Z.to_nat (c' - c)). induction n as [|n IH]; [rewrite Z.add_0_r; lia|].
  etransitivity; [exact IH|]. pose proof (B_mono_c1 (c + Z.of_nat (S n)) r) as M.
  replace (c + Z.of_nat (S n) - 1) with (c + Z.of_nat n) in M by lia. exact M.
Qed.
(** strictly, for at least one checkpoint *)
Lemma B_strict_r : forall c r, 1 <= c -> 0 <= r -> B c (r - 1) + 1 <= B c r.
Proof. intros c r C R. rewrite (B_pascal c r) by lia. pose proof (B_pos (c - 1) r ltac:(lia) R). lia. Qed.
Lemma beta_sym : forall c r, beta c r = beta r c.
Proof.
  intros c r. pose proof (beta_fact c r) as A. pose proof (beta_fact r c) as C.
  replace (r + c)%nat with (c + r)%nat in C by lia. rewrite <- C in A.
  replace (fact r * fact c)%nat with (fact c * fact r)%nat in A by ring.
  apply Nat.mul_cancel_r in A; [exact A|]. pose proof (lt_O_fact c). pose proof (lt_O_fact r). nia.
Qed.
Lemma B_sym : forall c r, B c r = B r c.
Proof. intros. unfold B. rewrite (orb_comm (c <? 0)). destruct ((r <? 0) || (c <? 0)); [reflexivity|]. now rewrite beta_sym. Qed.
Lemma beta_step : forall c r, (S r * beta c (S r) = (c + S r) * beta c r)%nat.
Proof.
  intros c r. pose proof (beta_fact c r) as A. pose proof (beta_fact c (S r)) as C.
  replace (c + S r)%nat with (S (c + r)) in C by lia.
  assert (fact (S (c + r)) = (S (c + r) * fact (c + r))%nat) as E by reflexivity. rewrite E, <- A in C.
  assert (fact (S r) = (S r * fact r)%nat) as Er by reflexivity. rewrite Er in C.
  apply (Nat.mul_cancel_r _ _ (fact c * fact r)%nat); [pose proof (lt_O_fact c); pose proof (lt_O_fact r); nia|].
  replace (c + S r)%nat with (S (c + r)) by lia. 
  replace (S r * beta c (S r) * (fact c * fact r))%nat with (beta c (S r) * (fact c * (S r * fact r)))%nat by ring.
  rewrite C. ring.
Qed.
(** r beta(c, r) = (c + r) beta(c, r - 1) and c beta(c, r) = (c + r) beta(c - 1, r) *)
Lemma B_step_r : forall c r, 0 <= c -> 1 <= r -> r * B c r = (c + r) * B c (r - 1).
Proof.
  intros c r C R. rewrite !B_pos_eq by lia. pose proof (beta_step (Z.to_nat c) (Z.to_nat (r - 1))) as S.
  replace (Datatypes.S (Z.to_nat (r - 1))) with (Z.to_nat r) in S by lia. nia.
Qed.
Lemma B_step_c : forall c r, 1 <= c -> 0 <= r -> c * B c r = (c + r) * B (c - 1) r.
Proof. intros c r C R. rewrite (B_sym c r), (B_sym (c - 1) r), (Z.add_comm c r). now apply B_step_r. Qed.
Lemma B_linear : forall c r, 1 <= c -> 0 <= r -> r + 1 <= B c r.
Proof.
  intros c r C R. replace r with (Z.of_nat (Z.to_nat r)) by lia. generalize (Z.to_nat r). induction n as [|n IH].
  - rewrite B_0_r by lia. lia.
  - pose proof (B_strict_r c (Z.of_nat (S n)) C ltac:(lia)) as H.
    replace (Z.of_nat (S n) - 1) with (Z.of_nat n) in H by lia. lia.
Qed.

Lemma is_binomial_B : forall c r b, 0 <= c -> 0 <= r -> is_binomial c r b <-> b = B c r.
Proof.
  intros c r b C R. unfold is_binomial. pose proof (beta_fact (Z.to_nat c) (Z.to_nat r)) as F.
  rewrite B_pos_eq by assumption. rewrite <- F. 
  pose proof (lt_O_fact (Z.to_nat c)). pose proof (lt_O_fact (Z.to_nat r)).
  set (f := (fact (Z.to_nat c) * fact (Z.to_nat r))%nat) in *. assert (0 < f)%nat by (unfold f; nia).
  rewrite Nat2Z.inj_mul. split; [|intros ->; reflexivity]. intros E. apply Z.mul_reg_r in E; [exact E|lia].
Qed.
Lemma within_B : forall steps snaps reps, 0 <= snaps -> 0 <= reps -> within steps snaps reps <-> steps <= B snaps reps.
Proof.
  intros. unfold within. split.
  - intros (b & E & L). apply is_binomial_B in E; try assumption. now subst.
  - intros L. exists (B snaps reps). split; [now apply is_binomial_B|exact L].
Qed.

(** ** Integers *)
Lemma int_ok : forall v, 0 <= v <= MAXINT -> int v = Some v.
Proof. intros v H. unfold int. rewrite (proj2 (Z.leb_le _ _)); [reflexivity|]. rewrite Z.abs_eq; lia. Qed.
Lemma quot_exact : forall a b q, 0 < b -> a = b * q -> Z.quot a b = q.
Proof. intros a b q P ->. rewrite Z.mul_comm. apply Z.quot_mul. lia. Qed.

(** ** The loop that finds the number of repetitions *)
Lemma expand_beta : forall fuel l ds r, 1 <= ds <= ADOLC_CHECKUP -> 0 <= r ->
  (r = 0 \/ B ds (r - 1) < l) -> l <= B ds r + Z.of_nat fuel ->
  l <= B ds ADOLC_REPSUP -> r <= ADOLC_REPSUP -> l * (ADOLC_CHECKUP + ADOLC_REPSUP) <= MAXINT ->
  exists r', expand fuel l ds r (B ds r) = Some (r', B ds r') /\ r <= r' <= ADOLC_REPSUP /\ l <= B ds r' /\ (r' = 0 \/ B ds (r' - 1) < l).
Proof.
  induction fuel as [|fuel IH]; intros l ds r D R M F W Rs O; cbn [expand].
  - destruct (Z.ltb_spec (B ds r) l); [lia|]. exists r. repeat split; try lia.
  - destruct (Z.ltb_spec (B ds r) l) as [H|H].
    + assert (r < ADOLC_REPSUP) as Lt.
      { destruct (Z_lt_dec r ADOLC_REPSUP); [assumption|]. replace r with ADOLC_REPSUP in H by lia. lia. }
      pose proof (B_nonneg ds r). pose proof (B_pos ds r ltac:(lia) R).
      rewrite int_ok by (split; [nia|]; transitivity (l * (ADOLC_CHECKUP + ADOLC_REPSUP)); [|exact O];
        apply Z.mul_le_mono_nonneg; unfold ADOLC_CHECKUP, ADOLC_REPSUP in *; lia).
      pose proof (B_step_r ds (r + 1) ltac:(lia) ltac:(lia)) as S. replace (r + 1 - 1) with r in S by lia.
      rewrite (quot_exact _ (r + 1) (B ds (r + 1))) by (try lia; rewrite S; ring).
      pose proof (B_strict_r ds (r + 1) ltac:(lia) ltac:(lia)) as T. replace (r + 1 - 1) with r in T by lia.
      destruct (IH l ds (r + 1)) as (r' & E & P); try assumption; try lia.
      * right. replace (r + 1 - 1) with r by lia. exact H.
      * exists r'. split; [exact E|]. destruct P as (P1 & P2 & P3). repeat split; try lia; assumption.
    + exists r. repeat split; try lia; assumption.
Qed.
Lemma expand_from_0 : forall l ds, 1 <= ds <= ADOLC_CHECKUP -> 1 <= l ->
  l <= B ds ADOLC_REPSUP -> l * (ADOLC_CHECKUP + ADOLC_REPSUP) <= MAXINT ->
  exists r, expand (Z.to_nat l) l ds 0 1 = Some (r, B ds r) /\ 0 <= r <= ADOLC_REPSUP /\ l <= B ds r /\ (r = 0 \/ B ds (r - 1) < l).
Proof.
  intros l ds D L W O. replace (expand (Z.to_nat l) l ds 0 1) with (expand (Z.to_nat l) l ds 0 (B ds 0)) by (rewrite B_0_r by lia; reflexivity).
  apply expand_beta; try assumption; try (unfold ADOLC_REPSUP; lia).
  rewrite B_0_r by lia. lia.
Qed.

(** ** The split *)
Lemma bino_values : forall r ds capo fine, 1 <= ds <= ADOLC_CHECKUP -> 1 <= r <= ADOLC_REPSUP ->
  B ds (r - 1) * (ADOLC_CHECKUP + ADOLC_REPSUP) <= MAXINT ->
  bino r (B ds r) ds capo fine = Some (
    if fine - capo <=? B ds (r - 1) + B (ds - 2) (r - 1) then capo + B ds (r - 2)
    else if fine - capo <? B ds (r - 1) + B (ds - 1) (r - 1) then fine - B (ds - 1) (r - 1) - B (ds - 2) (r - 1)
    else if fine - capo <=? B ds (r - 1) + B (ds - 1) (r - 1) + B (ds - 3) r then capo + (B ds (r - 1) - B (ds - 2) (r - 1))
    else fine - B (ds - 1) r).
Proof.
  intros r ds capo fine D R O. unfold bino. unfold ADOLC_CHECKUP, ADOLC_REPSUP in *.
  pose proof (B_step_r ds r ltac:(lia) ltac:(lia)) as E1.
  pose proof (B_pos ds (r - 1) ltac:(lia) ltac:(lia)) as P1.
  set (b1 := B ds (r - 1)) in *.
  assert (forall k, 0 <= k <= 2000 -> 0 <= b1 * k <= MAXINT) as K.
  { intros k Hk. split; [nia|]. transitivity (b1 * (1000 + 1000)); [|exact O]. apply Z.mul_le_mono_nonneg_l; lia. }
  rewrite int_ok by (rewrite (Z.mul_comm (B ds r)), E1, Z.mul_comm; apply K; lia).
  assert (Z.quot (B ds r * r) (ds + r) = b1) as ->.
  { apply quot_exact; [lia|]. now rewrite Z.mul_comm. }
  (* bino2 *)
  assert (ds * b1 = (ds + r - 1) * B (ds - 1) (r - 1)) as E2.
  { pose proof (B_step_c ds (r - 1) ltac:(lia) ltac:(lia)) as E. fold b1 in E. replace (ds + (r - 1)) with (ds + r - 1) in E by lia. exact E. }
  assert ((if ds >? 1 then match int (b1 * ds) with Some p => Some (Z.quot p (ds + r - 1)) | None => None end else Some 1)
          = Some (B (ds - 1) (r - 1))) as ->.
  { rewrite Z.gtb_ltb. destruct (Z.ltb_spec 1 ds) as [H|H].
    - rewrite int_ok by (apply K; lia). f_equal. apply quot_exact; [lia|]. now rewrite Z.mul_comm.
    - replace ds with 1 by lia. now rewrite B_0_l by lia. }
  set (b2 := B (ds - 1) (r - 1)) in *.
  assert (0 <= b2 <= b1) as P2 by (split; [apply B_nonneg|apply B_mono_c1]).
  (* bino3 *)
  assert ((if ds =? 1 then Some 0
           else if ds >? 2 then match int (b2 * (ds - 1)) with Some p => Some (Z.quot p (ds + r - 2)) | None => None end else Some 1)
          = Some (B (ds - 2) (r - 1))) as ->.
  { destruct (Z.eqb_spec ds 1) as [->|N]; [now rewrite B_neg_l by lia|].
    rewrite Z.gtb_ltb. destruct (Z.ltb_spec 2 ds) as [H|H].
    - rewrite int_ok by (specialize (K (ds - 1) ltac:(lia)); nia). f_equal. apply quot_exact; [lia|].
      pose proof (B_step_c (ds - 1) (r - 1) ltac:(lia) ltac:(lia)) as E. fold b2 in E.
      replace (ds - 1 + (r - 1)) with (ds + r - 2) in E by lia. replace (ds - 1 - 1) with (ds - 2) in E by lia.
      rewrite Z.mul_comm. exact E.
    - replace ds with 2 by lia. now rewrite B_0_l by lia. }
  set (b3 := B (ds - 2) (r - 1)) in *.
  assert (0 <= b3 <= b2) as P3.
  { split; [apply B_nonneg|]. unfold b3, b2. replace (ds - 2) with (ds - 1 - 1) by lia. apply B_mono_c1. }
  (* bino4 *)
  rewrite int_ok by (specialize (K (r - 1) ltac:(lia)); nia).
  assert (Z.quot (b2 * (r - 1)) ds = B ds (r - 2)) as ->.
  { apply quot_exact; [lia|]. destruct (Z.eq_dec r 1) as [->|N].
    - rewrite (B_neg_r ds) by lia. ring.
    - pose proof (B_step_r ds (r - 1) ltac:(lia) ltac:(lia)) as E. fold b1 in E. replace (r - 1 - 1) with (r - 2) in E by lia.
      replace (ds + (r - 1)) with (ds + r - 1) in E by lia.
      apply (Z.mul_reg_l _ _ (ds + r - 1)); [lia|].
      replace ((ds + r - 1) * (b2 * (r - 1))) with (((ds + r - 1) * b2) * (r - 1)) by ring. rewrite <- E2.
      replace ((ds + r - 1) * (ds * B ds (r - 2))) with (ds * ((ds + r - 1) * B ds (r - 2))) by ring. rewrite <- E. ring. }
  (* bino5 *)
  assert ((if ds <? 3 then Some 0
           else if ds >? 3 then match int (b3 * (ds - 2)) with Some p => Some (Z.quot p r) | None => None end else Some 1)
          = Some (B (ds - 3) r)) as ->.
  { destruct (Z.ltb_spec ds 3) as [H|H]; [now rewrite B_neg_l by lia|].
    rewrite Z.gtb_ltb. destruct (Z.ltb_spec 3 ds) as [H'|H'].
    - rewrite int_ok by (specialize (K (ds - 2) ltac:(lia)); nia). f_equal. apply quot_exact; [lia|].
      pose proof (B_step_c (ds - 2) (r - 1) ltac:(lia) ltac:(lia)) as E. fold b3 in E.
      replace (ds - 2 - 1) with (ds - 3) in E by lia.
      pose proof (B_step_r (ds - 3) r ltac:(lia) ltac:(lia)) as F. rewrite F.
      replace (ds - 2 + (r - 1)) with (ds - 3 + r) in E by lia. rewrite <- E. ring.
    - replace ds with 3 by lia. now rewrite B_0_l by lia. }
  assert (0 <= r * B (ds - 3) r <= b1 * 1000) as P5.
  { split; [pose proof (B_nonneg (ds - 3) r); nia|].
    destruct (Z_lt_dec ds 3); [rewrite B_neg_l by lia; lia|].
    rewrite (B_step_r (ds - 3) r) by lia.
    destruct (Z_lt_dec ds 4).
    - replace (ds - 3) with 0 by lia. rewrite B_0_l by lia. lia.
    - pose proof (B_step_c (ds - 2) (r - 1) ltac:(lia) ltac:(lia)) as E. fold b3 in E.
      replace (ds - 2 - 1) with (ds - 3) in E by lia. replace (ds - 2 + (r - 1)) with (ds - 3 + r) in E by lia. rewrite <- E. nia. }
  assert (0 <= B (ds - 3) r <= b1 * 1000) as P5'.
  { split; [apply B_nonneg|]. pose proof (B_nonneg (ds - 3) r). nia. }
  (* bino6 *)
  rewrite int_ok by (apply K; lia).
  assert (Z.quot (b1 * ds) r = B (ds - 1) r) as ->.
  { apply quot_exact; [lia|]. rewrite (B_step_r (ds - 1) r) by lia. fold b2. rewrite Z.mul_comm, E2. f_equal. lia. }
  rewrite !int_ok; [reflexivity| | |]; specialize (K 2000 ltac:(lia)); lia.
Qed.

(** ** Cost: r l - beta(c + 1, r - 1) *)
Definition T (l c v : Z) : Prop :=
  exists r, 0 <= r <= ADOLC_REPSUP /\ B c (r - 1) <= l <= B c r /\ v = r * l - B (c + 1) (r - 1).
Lemma T_one : forall c v, 0 <= c -> T 1 c v -> v = 0.
Proof.
  intros c v C (r & R & [L1 L2] & ->). destruct (Z.eq_dec r 0) as [->|N].
  - rewrite B_neg_r by lia. lia.
  - destruct (Z.eq_dec c 0) as [->|Nc].
    + pose proof (B_step_c 1 (r - 1) ltac:(lia) ltac:(lia)) as E. change (1 - 1) with 0 in E. rewrite B_0_l in E by lia. change (0 + 1) with 1. lia.
    + pose proof (B_linear c (r - 1) ltac:(lia) ltac:(lia)). assert (r = 1) as -> by lia.
      rewrite B_0_r by lia. lia.
Qed.
Lemma one_T : forall c, 0 <= c -> T 1 c 0.
Proof.
  intros c C. exists 0. split; [unfold ADOLC_REPSUP; lia|]. rewrite B_neg_r, B_0_r by lia. split; [lia|]. rewrite B_neg_r by lia. lia.
Qed.
Lemma T_nonneg : forall l c v, 0 <= c -> 1 <= l -> T l c v -> 0 <= v.
Proof.
  intros l c v C L (r & R & [L1 L2] & ->). destruct (Z.eq_dec r 0) as [->|N].
  - rewrite B_neg_r by lia. lia.
  - assert (B (c + 1) (r - 1) <= r * B c (r - 1)).
    { (* r beta(c, r - 1) = (c+r) beta(c,r-1) ... by induction on r *)
      clear -C R N. replace r with (Z.of_nat (Z.to_nat (r - 1)) + 1) by lia. generalize (Z.to_nat (r - 1)). induction n as [|n IH].
      - replace (Z.of_nat 0 + 1 - 1) with 0 by lia. rewrite !B_0_r by lia. lia.
      - rewrite (B_pascal (c + 1)) by lia. replace (c + 1 - 1) with c by lia.
        replace (Z.of_nat (S n) + 1 - 1) with (Z.of_nat n + 1) by lia. replace (Z.of_nat n + 1 - 1) with (Z.of_nat n) by lia.
        replace (Z.of_nat n + 1 - 1) with (Z.of_nat n) in IH by lia.
        pose proof (B_mono_r c (Z.of_nat n) (Z.of_nat n + 1) ltac:(lia)). pose proof (B_nonneg c (Z.of_nat n)).
        replace (Z.of_nat (S n) + 1) with (Z.of_nat n + 1 + 1) by lia. nia. }
    nia.
Qed.
Lemma T_slots : forall l c v, 0 <= c -> 2 <= l -> T l c v -> 1 <= c.
Proof.
  intros l c v C L (r & R & [L1 L2] & _). destruct (Z.eq_dec c 0) as [->|]; [|lia].
  destruct (Z.eq_dec r 0) as [->|]; [rewrite B_0_r in L2 by lia; lia|]. rewrite B_0_l in L2 by lia. lia.
Qed.
Lemma T_bound : forall l c v, T l c v -> l <= B c ADOLC_REPSUP.
Proof. intros l c v (r & R & [L1 L2] & _). etransitivity; [exact L2|]. apply B_mono_r. lia. Qed.

(** the value does not depend on the choice of r *)
Lemma T_functional : forall l c v v', 0 <= c -> 1 <= l -> T l c v -> T l c v' -> v = v'.
Proof.
  assert (forall l c r r', 0 <= c -> 0 <= r -> r <= r' -> B c (r' - 1) <= l <= B c r -> 
            r * l - B (c + 1) (r - 1) = r' * l - B (c + 1) (r' - 1)) as H.
  { intros l c r r' C R LE. replace r' with (r + Z.of_nat (Z.to_nat (r' - r))) by lia. clear LE.
    generalize (Z.to_nat (r' - r)). induction n as [|n IH]; intros [L1 L2]; [rewrite Z.add_0_r; reflexivity|].
    pose proof (B_mono_r c (r + Z.of_nat n - 1) (r + Z.of_nat (S n) - 1) ltac:(lia)).
    rewrite IH by lia.
    assert (l = B c (r + Z.of_nat n)) as El.
    { pose proof (B_mono_r c r (r + Z.of_nat n) ltac:(lia)). replace (r + Z.of_nat (S n) - 1) with (r + Z.of_nat n) in L1 by lia. lia. }
    destruct (Z.eq_dec (r + Z.of_nat n) 0) as [E0|N0].
    - replace (r + Z.of_nat (S n)) with 1 by lia. rewrite E0 in *. rewrite B_neg_r by lia. cbn [Z.sub Z.add Z.opp Z.pos_sub].
      replace (1 - 1) with 0 by lia. rewrite B_0_r in * by lia. lia.
    - rewrite (B_pascal (c + 1) (r + Z.of_nat (S n) - 1)) by lia.
      replace (c + 1 - 1) with c by lia. replace (r + Z.of_nat (S n) - 1) with (r + Z.of_nat n) by lia.
      rewrite <- El. replace (r + Z.of_nat (S n)) with (r + Z.of_nat n + 1) by lia. lia. }
  intros l c v v' C L (r & R & L1 & ->) (r' & R' & L1' & ->).
  destruct (Z_le_dec r r').
  - apply H; lia.
  - symmetry. apply H; lia.
Qed.

Lemma split_ok : forall l c v r capo fine c1, 1 <= c <= ADOLC_CHECKUP -> 2 <= l -> fine - capo = l ->
  0 <= r <= ADOLC_REPSUP -> l <= B c r -> (r = 0 \/ B c (r - 1) < l) -> T l c v ->
  l * (ADOLC_CHECKUP + ADOLC_REPSUP) <= MAXINT ->
  bino r (B c r) c capo fine = Some c1 ->
  let c2 := if c1 =? capo then capo + 1 else c1 in
  exists v1 v2, capo < c2 < fine /\ T (c2 - capo) c v1 /\ T (fine - c2) (c - 1) v2 /\ v = (c2 - capo) + v1 + v2.
Proof.
  intros l c v r capo fine c1 C L Lf R L2 L1 Tv O Hb c2.
  assert (1 <= r) as R1.
  { destruct (Z.eq_dec r 0) as [->|]; [|lia]. rewrite B_0_r in L2 by lia. lia. }
  assert (B c (r - 1) < l) as L1' by (destruct L1 as [L1|L1]; [lia|exact L1]).
  assert (v = r * l - B (c + 1) (r - 1)) as Ev.
  { apply (T_functional l c); try lia; [exact Tv|]. exists r. split; [lia|]. split; [lia|reflexivity]. }
  rewrite bino_values in Hb; try lia; try (split; lia).
  2: { pose proof (B_nonneg c (r - 1)). unfold ADOLC_CHECKUP, ADOLC_REPSUP in *. nia. }
  injection Hb as Hb.
  (* Pascal *)
  pose proof (B_pascal c r ltac:(lia) ltac:(lia) ltac:(lia)) as P1.                 (* range = b6 + b1 *)
  pose proof (B_pascal c (r - 1) ltac:(lia) ltac:(lia) ltac:(lia)) as P2.           (* b1 = b2 + b4 *)
  replace (r - 1 - 1) with (r - 2) in P2 by lia.
  assert (B (c - 1) r = B (c - 2) r + B (c - 1) (r - 1)) as P3.                      (* b6 = beta(c-2,r) + b2 *)
  { rewrite (B_pascal (c - 1) r) by lia. f_equal. f_equal. lia. }
  assert (B (c - 2) r = B (c - 3) r + B (c - 2) (r - 1)) as P4.                      (* = b5 + b3 *)
  { destruct (Z_lt_dec (c - 2) 0); [rewrite !B_neg_l by lia; lia|]. rewrite (B_pascal (c - 2) r) by lia. f_equal. f_equal. lia. }
  pose proof (B_mono_c1 (c - 1) (r - 1)) as M1. replace (c - 1 - 1) with (c - 2) in M1 by lia.   (* b3 <= b2 *)
  pose proof (B_nonneg (c - 3) r). pose proof (B_nonneg (c - 2) (r - 1)). pose proof (B_nonneg c (r - 2)).
  pose proof (B_pos (c - 1) (r - 1) ltac:(lia) ltac:(lia)) as Pb2.
  pose proof (B_nonneg (c - 2) r).
  assert (B c (r - 2) <= c2 - capo <= B c (r - 1) /\ B (c - 1) (r - 1) <= fine - c2 <= B (c - 1) r /\ capo < c2) as (Ha & Hr & Hl).
  { destruct (Z.eq_dec r 1) as [->|Nr].
    - (* r = 1 *) replace (1 - 1) with 0 in * by lia. replace (1 - 2) with (-1) in * by lia.
      rewrite (B_neg_r c (-1)) in * by lia. rewrite (B_0_r c) in * by lia. rewrite (B_0_r (c - 1)) in * by lia.
      assert (0 <= B (c - 2) 0 <= 1) by (destruct (Z_lt_dec (c - 2) 0); [rewrite B_neg_l by lia; lia|rewrite B_0_r by lia; lia]).
      subst c2 c1.
      destruct (Z.leb_spec (fine - capo) (1 + B (c - 2) 0));
      [|destruct (Z.ltb_spec (fine - capo) (1 + 1));
        [|destruct (Z.leb_spec (fine - capo) (1 + 1 + B (c - 3) 1))]];
      match goal with |- context [?x =? ?y] => destruct (Z.eqb_spec x y) end; lia.
    - assert (1 <= B c (r - 2)) by (apply B_pos; lia).
      subst c2 c1.
      destruct (Z.leb_spec (fine - capo) (B c (r - 1) + B (c - 2) (r - 1)));
      [|destruct (Z.ltb_spec (fine - capo) (B c (r - 1) + B (c - 1) (r - 1)));
        [|destruct (Z.leb_spec (fine - capo) (B c (r - 1) + B (c - 1) (r - 1) + B (c - 3) r))]];
      match goal with |- context [?x =? ?y] => destruct (Z.eqb_spec x y) end; lia. }
  exists ((r - 1) * (c2 - capo) - B (c + 1) (r - 2)), (r * (fine - c2) - B c (r - 1)).
  split; [lia|]. split; [|split].
  - exists (r - 1). split; [lia|]. replace (r - 1 - 1) with (r - 2) by lia. split; [lia|reflexivity].
  - exists r. split; [lia|]. replace (c - 1 + 1) with c by lia. split; [lia|reflexivity].
  - pose proof (B_pascal (c + 1) (r - 1) ltac:(lia) ltac:(lia) ltac:(lia)) as P5.
    replace (c + 1 - 1) with c in P5 by lia. replace (r - 1 - 1) with (r - 2) in P5 by lia.
    replace l with ((c2 - capo) + (fine - c2)) in Ev by lia. lia.
Qed.

(** no schedule is cheaper *)
Lemma T_optimal : forall l c v, feasible l c v -> forall w, T l c w -> w <= v.
Proof.
  assert (forall l c v, feasible l c v -> 0 <= v /\ 0 <= c /\ 1 <= l /\ forall r, 0 <= r -> r * l - B (c + 1) (r - 1) <= v) as H.
  { intros l c v F. induction F as [c C|l c m v w C M F1 IH1 F2 IH2].
    - split; [lia|]. split; [lia|]. split; [lia|]. intros r R. destruct (Z.eq_dec r 0) as [->|]; [rewrite B_neg_r by lia; lia|].
      pose proof (B_linear (c + 1) (r - 1) ltac:(lia) ltac:(lia)). lia.
    - destruct IH1 as (V1 & C1 & L1 & IH1). destruct IH2 as (V2 & C2 & L2 & IH2).
      split; [lia|]. split; [lia|]. split; [lia|]. intros r R. destruct (Z.eq_dec r 0) as [->|].
      + rewrite B_neg_r by lia. lia.
      + specialize (IH1 r R). specialize (IH2 (r - 1) ltac:(lia)).
        replace (c - 1 + 1) with c in IH1 by lia. replace (r - 1 - 1) with (r - 2) in IH2 by lia.
        pose proof (B_pascal (c + 1) (r - 1) ltac:(lia) ltac:(lia) ltac:(lia)) as P.
        replace (c + 1 - 1) with c in P by lia. replace (r - 1 - 1) with (r - 2) in P by lia. lia. }
  intros l c v F w (r & R & _ & ->). destruct (H l c v F) as (_ & _ & _ & K). apply K. lia.
Qed.
