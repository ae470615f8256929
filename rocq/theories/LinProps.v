(* C35: jac_solv solves with the Jacobian.  Theorems for the user. *)
From Coq Require Import List ZArith Bool Arith Lia Reals Lra.
Require Import Verif.LinModel Verif.LinSpec Verif.LinProofs.
Import ListNotations.
Local Open Scope R_scope.

(* A factorisation that reports no error solves every right hand side, and the matrix
   is nonsingular: a singular Jacobian is always reported. *)
Theorem C35_factor_and_solve (A : nat -> nat -> R) n b z0 :
  let f := LUFactorization A n in
  (0 <= lu_rc f)%Z ->
  solves n A (GauszSolve (lu_J f) n (lu_ri f) (lu_ci f) b z0) b /\ nonsingular n A.
Proof.
  intros f H. destruct (LU_factored n A H) as [F _].
  split; [now apply GauszSolve_solves|now apply LU_nonsingular with (1 := F)].
Qed.

Lemma factored_ext n k A B J ri ci : (forall i j, (i < n)%nat -> (j < n)%nat -> A i j = B i j) ->
  factored n k A J ri ci -> factored n k B J ri ci.
Proof.
  intros E (P1 & P2 & D & Q). repeat (split; auto). intros i j Hi Hj.
  rewrite <- E by (eapply perm_lt; eauto). now apply Q.
Qed.

Lemma mindec_pos c1 c2 : (0 <= mindec (mindec 3 c1) c2)%Z -> (0 <= c1)%Z /\ (0 <= c2)%Z.
Proof. unfold mindec. destruct (Z.ltb_spec c1 3); destruct (Z.ltb_spec c2 c1); destruct (Z.ltb_spec c2 3); lia. Qed.
Lemma newX_false n (x y : nat -> R) : existsb (fun i => neb (x i) (y i)) (seq 0 n) = false ->
  forall i, (i < n)%nat -> x i = y i.
Proof.
  intros H i Hi. destruct (Req_EM_T (x i) (y i)) as [E|E]; auto. exfalso.
  rewrite <- not_true_iff_false in H. apply H, existsb_exists. exists i.
  split; [apply in_seq; lia|]. unfold neb. destruct (Req_EM_T (x i) (y i)); auto.
Qed.

(* what the persistent data is after a call *)
Definition good_call (c : call) : Prop :=
  (c_mode c = 1%nat \/ c_mode c = 2%nat) /\ (0 <= c_rc c)%Z.
Definition after (s : js) (c : call) : Prop :=
  nax s = c_n c /\ (forall i, (i < c_n c)%nat -> jxold s i = c_x c i) /\
  (good_call c -> (1 <= modeold s)%nat /\
     factored (c_n c) (c_n c) (c_jac c (c_x c)) (jJ s) (jri s) (jci s)).

Definition right (c : call) : Prop :=
  c_mode c = 2%nat -> (0 <= c_rc c)%Z ->
  solves (c_n c) (c_jac c (c_x c)) (c_res c) (c_b c) /\ nonsingular (c_n c) (c_jac c (c_x c)).

Lemma call_ok s c gx z0 s' :
  jac_solv (c_sw c) (c_n c) (c_x c) (c_b c) (c_mode c) gx z0 s = (c_rc c, c_res c, s') ->
  reliable (c_n c) (c_sw c) (c_jac c) ->
  (c_mode c = 2%nat -> nax s = c_n c -> (1 <= modeold s)%nat ->
     (forall i, (i < c_n c)%nat -> jxold s i = c_x c i) ->
     factored (c_n c) (c_n c) (c_jac c (c_x c)) (jJ s) (jri s) (jci s)) ->
  after s' c /\ right c.
Proof.
  destruct c as [sw jac n x b mode rc res]. cbn [c_sw c_n c_x c_b c_mode c_rc c_res c_jac].
  intros H [_ Re] V. unfold jac_solv in H.
  set (s1 := if Nat.eqb n (nax s) then s else mkJS n 0 (fun _ _ => 0) (fun i => i) (fun i => i) gx) in *.
  assert (N1 : nax s1 = n). { unfold s1. destruct (Nat.eqb_spec n (nax s)); auto. }
  destruct (sw x) as [[c1 c2] J] eqn:Es.
  pose proof (Re x c1 c2 J Es) as Hr.
  assert (Fac : (0 <= lu_rc (LUFactorization J n))%Z -> (0 <= mindec (mindec 3 c1) c2)%Z ->
     factored n n (jac x) (lu_J (LUFactorization J n)) (lu_ri (LUFactorization J n)) (lu_ci (LUFactorization J n))).
  { intros A B. destruct (mindec_pos _ _ B) as [B1 B2].
    apply factored_ext with (A := J); [intros; now apply Hr|]. now apply LU_factored. }
  unfold after, right, good_call. cbn [c_sw c_n c_x c_b c_mode c_rc c_res c_jac].
  assert (X : forall i, (i < n)%nat -> (if Nat.ltb i n then x i else jxold s1 i) = x i).
  { intros i Hi. destruct (Nat.ltb_spec i n); [auto|lia]. }
  cbn [nax modeold jJ jri jci jxold] in H.
  assert (Sol : forall J ri ci z0, factored n n (jac x) J ri ci ->
     solves n (jac x) (GauszSolve J n ri ci b z0) b /\ nonsingular n (jac x)).
  { intros. split; [now apply GauszSolve_solves|now apply LU_nonsingular with (1 := H0)]. }
  destruct mode as [|[|[|mode]]].
  - injection H as <- <- <-. cbn. repeat split; auto; intros; lia.
  - destruct (Z.ltb_spec (lu_rc (LUFactorization J n)) 0).
    + injection H as <- <- <-. cbn. repeat split; auto; intros; lia.
    + injection H as <- <- <-. cbn. repeat split; auto; try (intros; lia); now apply Fac.
  - destruct (Nat.ltb (modeold s1) 1 || existsb (fun i => neb (x i) (jxold s1 i)) (seq 0 n))%bool eqn:Q.
    + destruct (Z.ltb_spec (lu_rc (LUFactorization J n)) 0).
      * injection H as <- <- <-. cbn. repeat split; auto; intros; lia.
      * injection H as <- <- <-. cbn. split.
        -- split; [auto|]. split; [auto|]. intros [_ G]; auto.
        -- intros _ G. apply Sol. now apply Fac.
    + apply orb_false_elim in Q as [Q1 Q2]. apply Nat.ltb_ge in Q1.
      pose proof (newX_false _ _ _ Q2) as Ex.
      assert (E1 : s1 = s).
      { unfold s1 in *. destruct (Nat.eqb_spec n (nax s)); auto. cbn in Q1. lia. }
      rewrite E1 in *.
      assert (F : factored n n (jac x) (jJ s) (jri s) (jci s)).
      { apply V; auto. intros i Hi. symmetry. auto. }
      injection H as <- <- <-. cbn. split.
      * split; [auto|]. split; [auto|]. auto.
      * intros _ _. now apply Sol.
  - injection H as <- <- <-. cbn. repeat split; auto; intros; lia.
Qed.

(* Every series of calls for one tag, the tag may be traced again in between: in mode 2
   a code that is not negative means that b is now the solution. *)
Theorem C35_solution cs s' :
  series js0 cs s' -> (forall c, In c cs -> reliable (c_n c) (c_sw c) (c_jac c)) -> in_order cs ->
  forall c, In c cs -> c_mode c = 2%nat -> (0 <= c_rc c)%Z ->
  solves (c_n c) (c_jac c (c_x c)) (c_res c) (c_b c) /\ nonsingular (c_n c) (c_jac c (c_x c)).
Proof.
  intros Se Re Od c Ic. change (right c). revert c Ic.
  assert (G : forall cs s, series s cs s' -> (forall c, In c cs -> reliable (c_n c) (c_sw c) (c_jac c)) ->
     in_order cs -> (modeold s = 0%nat \/ exists p, after s p /\ match cs with c :: _ => may_follow p c | [] => True end) ->
     forall c, In c cs -> right c).
  { clear. induction cs as [|c cs IH]; intros s Se Re Od Hs d Id; [destruct Id|].
    inversion Se as [|? ? ? s1 ? gx z0 E Se']; subst.
    assert (A : after s1 c /\ right c).
    { eapply call_ok; eauto. { apply Re. now left. }
      intros M N Mo X. destruct Hs as [Hs|(p & (A1 & A2 & A3) & Mf)]; [lia|].
      destruct (Mf M) as (Q1 & Q2 & Q3 & Q4).
      { split; [congruence|]. intros i Hi. rewrite <- A2, X; auto. congruence. }
      destruct A3 as [_ A3]; [split; auto|].
      rewrite <- Q4, <- N, A1. replace (c_jac p (c_x c)) with (c_jac p (c_x p)); auto.
      rewrite Q4. apply (proj1 (Re c (or_introl eq_refl))). intros i Hi.
      rewrite <- A2, X; auto. congruence. }
    destruct A as [A B]. destruct Id as [<-|Id]; auto.
    apply (IH s1); auto.
    - intros e He. apply Re. now right.
    - cbn in Od. destruct cs; [exact I|apply Od].
    - right. exists c. split; auto. destruct cs; [exact I|apply Od]. }
  intros c Ic. apply (G cs js0); auto.
Qed.

(* A negative code of a call whose sweeps succeeded is given for a nearly singular Jacobian
   only, whatever the calls before. *)
Theorem C35_refused c s gx z0 s' c1 c2 J :
  jac_solv (c_sw c) (c_n c) (c_x c) (c_b c) (c_mode c) gx z0 s = (c_rc c, c_res c, s') ->
  reliable (c_n c) (c_sw c) (c_jac c) ->
  c_sw c (c_x c) = (c1, c2, J) -> (0 <= c1)%Z -> (0 <= c2)%Z -> (c_rc c < 0)%Z ->
  nearly_singular (c_n c) (c_jac c (c_x c)).
Proof.
  intros E [_ Re] Sw P1 P2 Ng. specialize (Re _ _ _ _ Sw P1 P2).
  assert (F : (lu_rc (LUFactorization J (c_n c)) < 0)%Z).
  { assert (M : (0 <= mindec (mindec 3 c1) c2)%Z).
    { unfold mindec. destruct (Z.ltb_spec c1 3); destruct (Z.ltb_spec c2 c1); destruct (Z.ltb_spec c2 3); lia. }
    unfold jac_solv in E. rewrite Sw in E.
    destruct (c_mode c) as [|[|[|m]]].
    - injection E as E _ _. lia.
    - destruct (Z.ltb_spec (lu_rc (LUFactorization J (c_n c))) 0); auto. injection E as E _ _. lia.
    - match type of E with context [if ?q then _ else _] => destruct q end.
      + destruct (Z.ltb_spec (lu_rc (LUFactorization J (c_n c))) 0); auto. injection E as E _ _. lia.
      + injection E as E _ _. lia.
    - injection E as E _ _. lia. }
  destruct (LU_failed _ _ F) as (x & q & Hq & X1 & X2). exists x, q. split; auto. split; auto.
  intros r Hr. rewrite (total_ext _ _ (fun c0 => J r c0 * x c0)).
  - apply X2; auto.
  - intros k Hk. now rewrite Re.
Qed.

(* ------------------------------------------------------------------ *)
(* One by one matrices *)
Lemma ZERO_small : 0 < ZERO < 1.
Proof.
  unfold ZERO. split; [apply Rinv_0_lt_compat, pow_lt; lra|].
  rewrite <- Rinv_1. apply Rinv_lt_contravar; [rewrite Rmult_1_l; apply pow_lt; lra|].
  apply (Rlt_pow_R1 10 15); [lra|lia].
Qed.
Lemma LU1 J : let f := LUFactorization J 1 in
  (ZERO <= Rabs (J 0%nat 0%nat) -> f = mkLU 1 J (exchange (fun i => i) 0 0) (exchange (fun i => i) 0 0)) /\
  (Rabs (J 0%nat 0%nat) < ZERO -> (lu_rc f < 0)%Z).
Proof.
  pose proof ZERO_small as Z. cbv zeta. unfold LUFactorization. cbn [lu_loop].
  unfold pivot, pivot_row. cbn [seq fold_left Nat.sub fst].
  destruct (gtb (Rabs (J 0%nat 0%nat)) 0) eqn:G; split; intros H.
  - replace (gtb ZERO (Rabs (J 0%nat 0%nat))) with false by (symmetry; apply gtb_false; lra). reflexivity.
  - replace (gtb ZERO (Rabs (J 0%nat 0%nat))) with true by (symmetry; apply gtb_spec; lra). cbn. lia.
  - apply gtb_false in G. lra.
  - replace (gtb ZERO 0) with true by (symmetry; apply gtb_spec; lra). cbn. lia.
Qed.
Lemma solve1 J ri ci b z0 : ri 0%nat = 0%nat -> ci 0%nat = 0%nat ->
  GauszSolve J 1 ri ci b z0 0%nat = b 0%nat / J 0%nat 0%nat.
Proof. intros R C. unfold GauszSolve, backw, forw. cbn. unfold setv. rewrite R, !C. reflexivity. Qed.

(* n = 1, one sweep result per call *)
Definition cst (v : R) : nat -> R := fun _ => v.
Definition sw1 (c : Z) (a : R) : sweeps := fun _ => (c, 3%Z, fun _ _ => a).
Definition at_point (f : R -> Z * R) : sweeps := fun x => let (c, a) := f (x 0%nat) in (c, 3%Z, fun _ _ => a).
Definition jac_of (f : R -> R) : (nat -> R) -> nat -> nat -> R := fun x _ _ => f (x 0%nat).

(* Mode 1, then twice mode 2 at the same point, then mode 2 elsewhere: F(x) = x^2/2. *)
Definition square : sweeps := at_point (fun v => (3%Z, v)).
Definition square_call x b mode rc res : call :=
  mkCall square (jac_of (fun v => v)) 1 (cst x) b mode rc res.
Lemma square_reliable : reliable 1 square (jac_of (fun v => v)).
Proof.
  split. - intros x y H. unfold jac_of. rewrite H by lia. reflexivity.
  - intros x c1 c2 J E _ _ i j _ _. unfold square, at_point in E. injection E as _ _ <-. reflexivity.
Qed.
Lemma exch0 i : exchange (fun i => i) 0 0 i = i.
Proof. reflexivity. Qed.
Lemma C35_nontrivial : exists r1 r2 r3 r4 s',
  let cs := [square_call 2 (cst 6) 1 3 r1; square_call 2 (cst 6) 2 3 r2;
             square_call 2 (cst 8) 2 3 r3; square_call 5 (cst 20) 2 3 r4] in
  series js0 cs s' /\ in_order cs /\ (forall c, In c cs -> reliable (c_n c) (c_sw c) (c_jac c)) /\
  r1 0%nat = 6 /\ r2 0%nat = 3 /\ r3 0%nat = 4 /\ r4 0%nat = 4.
Proof.
  pose proof ZERO_small as Z.
  assert (L2 : LUFactorization (fun _ _ => 2) 1 = mkLU 1 (fun _ _ => 2) (exchange (fun i => i) 0 0) (exchange (fun i => i) 0 0)).
  { apply (proj1 (LU1 (fun _ _ => 2))). rewrite Rabs_right; lra. }
  assert (L5 : LUFactorization (fun _ _ => 5) 1 = mkLU 1 (fun _ _ => 5) (exchange (fun i => i) 0 0) (exchange (fun i => i) 0 0)).
  { apply (proj1 (LU1 (fun _ _ => 5))). rewrite Rabs_right; lra. }
  assert (N2 : neb 2 2 = false) by (unfold neb; destruct (Req_EM_T 2 2); auto; lra).
  assert (N5 : neb 5 2 = true) by (unfold neb; destruct (Req_EM_T 5 2); auto; lra).
  do 5 eexists. cbv zeta. split; [|split; [|split]].
  - eapply series_call with (gx := cst 0) (z0 := cst 0).
    { unfold jac_solv, square_call; cbn -[LUFactorization GauszSolve Rabs neb]. unfold cst. rewrite L2. cbn -[GauszSolve neb]. reflexivity. }
    eapply series_call with (gx := cst 0) (z0 := cst 0).
    { unfold jac_solv, square_call; cbn -[LUFactorization GauszSolve Rabs neb]. unfold cst. rewrite N2. cbn -[GauszSolve neb]. reflexivity. }
    eapply series_call with (gx := cst 0) (z0 := cst 0).
    { unfold jac_solv, square_call; cbn -[LUFactorization GauszSolve Rabs neb]. unfold cst. rewrite N2. cbn -[GauszSolve neb]. reflexivity. }
    eapply series_call with (gx := cst 0) (z0 := cst 0).
    { unfold jac_solv, square_call; cbn -[LUFactorization GauszSolve Rabs neb]. unfold cst. rewrite N5, L5. cbn -[GauszSolve neb]. reflexivity. }
    constructor.
  - cbn. unfold may_follow, same_point. cbn. repeat split; auto; try lia; intros; try lia.
    all: try (destruct H0 as [_ H0]; specialize (H0 0%nat ltac:(lia)); unfold cst in H0; lra).
  - intros c [<-|[<-|[<-|[<-|[]]]]]; apply square_reliable.
  - rewrite !solve1 by reflexivity. unfold cst. cbn. repeat split; lra.
Qed.

(* ------------------------------------------------------------------ *)
(* Where the guard in_order is needed: in each series the last call has mode 2 and
   returns 3, the result is not the solution. *)
Definition wrong_answer (cs : list call) : Prop :=
  exists s', series js0 cs s' /\ (forall c, In c cs -> reliable (c_n c) (c_sw c) (c_jac c)) /\
  exists c, In c cs /\ c_mode c = 2%nat /\ c_rc c = 3%Z /\
    ~ solves (c_n c) (c_jac c (c_x c)) (c_res c) (c_b c).

Ltac one_call rw := eapply series_call with (gx := cst 0) (z0 := cst 0);
  [unfold jac_solv; cbn -[LUFactorization GauszSolve Rabs neb]; unfold cst; rw;
   cbn -[GauszSolve neb LUFactorization]; reflexivity|].
Lemma LU1_of a : 1 <= Rabs a ->
  LUFactorization (fun _ _ => a) 1 = mkLU 1 (fun _ _ => a) (exchange (fun i => i) 0 0) (exchange (fun i => i) 0 0).
Proof. intros H. apply (proj1 (LU1 (fun _ _ => a))). pose proof ZERO_small. lra. Qed.
Lemma neb_t a b : a <> b -> neb a b = true.
Proof. intros H. unfold neb. destruct (Req_EM_T a b); auto; contradiction. Qed.
Lemma neb_f a : neb a a = false.
Proof. unfold neb. destruct (Req_EM_T a a); auto; contradiction. Qed.

(* A singular point: the first call there fails with -3, the second "succeeds". *)
Definition centred : sweeps := square.
Theorem C35_after_failure_refuted : exists r1 r2 r3,
  wrong_answer [square_call 1 (cst 1) 2 3 r1; square_call 0 (cst 1) 2 (-3) r2;
                square_call 0 (cst 1) 2 3 r3].
Proof.
  pose proof ZERO_small as Zs.
  assert (L1 := LU1_of 1 ltac:(rewrite Rabs_R1; lra)).
  assert (L0 : Z.ltb (lu_rc (LUFactorization (fun _ _ => 0) 1)) 0 = true).
  { apply Z.ltb_lt. apply (proj2 (LU1 (fun _ _ => 0))). rewrite Rabs_R0. lra. }
  do 3 eexists. eexists. split; [|split].
  - one_call ltac:(rewrite L1). one_call ltac:(rewrite (neb_t 0 1) by lra; rewrite L0).
    one_call ltac:(rewrite (neb_f 0)). constructor.
  - intros c [<-|[<-|[<-|[]]]]; apply square_reliable.
  - eexists. split; [right; right; left; reflexivity|]. split; [reflexivity|]. split; [reflexivity|].
    unfold square_call. cbn. intros H. specialize (H 0%nat ltac:(lia)). cbn in H. unfold jac_of, cst in H. lra.
Qed.

(* The same tag is traced again: the old factorisation is still used. *)
Definition lin (a : R) : sweeps := at_point (fun _ => (3%Z, a)).
Definition lin_call a x b mode rc res : call := mkCall (lin a) (jac_of (fun _ => a)) 1 (cst x) b mode rc res.
Lemma lin_reliable a : reliable 1 (lin a) (jac_of (fun _ => a)).
Proof.
  split. - intros x y H. reflexivity.
  - intros x c1 c2 J E _ _ i j _ _. unfold lin, at_point in E. injection E as _ _ <-. reflexivity.
Qed.
Theorem C35_traced_again_refuted : exists r1 r2,
  wrong_answer [lin_call 1 7 (cst 1) 2 3 r1; lin_call 2 7 (cst 1) 2 3 r2].
Proof.
  assert (L1 := LU1_of 1 ltac:(rewrite Rabs_R1; lra)).
  do 2 eexists. eexists. split; [|split].
  - one_call ltac:(rewrite L1). one_call ltac:(rewrite (neb_f 7)). constructor.
  - intros c [<-|[<-|[]]]; apply lin_reliable.
  - eexists. split; [right; left; reflexivity|]. split; [reflexivity|]. split; [reflexivity|].
    unfold lin_call. cbn -[GauszSolve]. intros H. specialize (H 0%nat ltac:(lia)). cbn -[GauszSolve] in H.
    rewrite solve1 in H by reflexivity. unfold jac_of, cst in H. lra.
Qed.

(* The sweeps report a branch switch, the matrix they leave is worthless: the first
   call says so, the second does not. *)
Definition broken : sweeps := at_point (fun _ => ((-1)%Z, 1)).
Definition broken_call b mode rc res : call := mkCall broken (jac_of (fun _ => 2)) 1 (cst 7) b mode rc res.
Theorem C35_after_branch_switch_refuted : exists r1 r2,
  wrong_answer [broken_call (cst 1) 2 (-1) r1; broken_call (cst 1) 2 3 r2].
Proof.
  assert (L1 := LU1_of 1 ltac:(rewrite Rabs_R1; lra)).
  do 2 eexists. eexists. split; [|split].
  - one_call ltac:(rewrite L1). one_call ltac:(rewrite (neb_f 7)). constructor.
  - intros c Hc. assert (E : c_n c = 1%nat /\ c_sw c = broken /\ c_jac c = jac_of (fun _ => 2))
      by (destruct Hc as [<-|[<-|[]]]; auto).
    destruct E as (-> & -> & ->). split; [reflexivity|].
    intros x c1 c2 J E H. unfold broken, at_point in E. injection E as <- _ _. lia.
  - eexists. split; [right; left; reflexivity|]. split; [reflexivity|]. split; [reflexivity|].
    unfold broken_call. cbn -[GauszSolve]. intros H. specialize (H 0%nat ltac:(lia)). cbn -[GauszSolve] in H.
    rewrite solve1 in H by reflexivity. unfold jac_of, cst in H. lra.
Qed.

(* Mode 0 overwrites the factors with the Jacobian; J = (2 0; 2 1), b = (2, 0). *)
Definition two : nat -> nat -> R := fun i j =>
  match i, j with O, O => 2 | S O, O => 2 | S O, S O => 1 | _, _ => 0 end.
Definition sw2 : sweeps := fun _ => (3%Z, 3%Z, two).
Definition b2 : nat -> R := fun i => match i with O => 2 | _ => 0 end.
Definition call2 mode rc res : call := mkCall sw2 (fun _ => two) 2 (cst 0) b2 mode rc res.
Definition ord2 : nat -> nat := exchange (exchange (fun i => i) 0 0) 1 1.
Lemma LU2 : lu_rc (LUFactorization two 2) = 2%Z /\ lu_ri (LUFactorization two 2) = ord2 /\
  lu_ci (LUFactorization two 2) = ord2.
Proof.
  pose proof ZERO_small as Zs.
  assert (P0 : pivot two (fun i => i) (fun i => i) 0 2 = (2, 0%nat, 0%nat)).
  { unfold pivot, pivot_row. cbn [seq fold_left Nat.sub fst two].
    rewrite (Rabs_right 2), Rabs_R0, (Rabs_right 1) by lra.
    replace (gtb 2 0) with true by (symmetry; apply gtb_spec; lra). cbn [fst].
    replace (gtb 0 2) with false by (symmetry; apply gtb_false; lra). cbn [fst].
    replace (gtb 2 2) with false by (symmetry; apply gtb_false; lra). cbn [fst].
    replace (gtb 1 2) with false by (symmetry; apply gtb_false; lra). reflexivity. }
  unfold LUFactorization. cbn [lu_loop]. rewrite P0.
  replace (gtb ZERO 2) with false by (symmetry; apply gtb_false; lra).
  set (e := exchange (fun i => i) 0 0). set (J1 := lu_rows e e 0 2 two).
  assert (J11 : J1 1%nat 1%nat = 1).
  { unfold J1, lu_rows, lu_row. cbn. unfold setm. cbn. field. }
  assert (P1 : pivot J1 e e 1 2 = (1, 1%nat, 1%nat)).
  { unfold pivot, pivot_row. cbn [seq fold_left Nat.sub fst].
    change (J1 (e 1%nat) (e 1%nat)) with (J1 1%nat 1%nat). rewrite J11, Rabs_R1.
    replace (gtb 1 0) with true by (symmetry; apply gtb_spec; lra). reflexivity. }
  rewrite P1. replace (gtb ZERO 1) with false by (symmetry; apply gtb_false; lra).
  cbn. auto.
Qed.
Theorem C35_after_mode_0_refuted : exists r1 r2 r3,
  wrong_answer [call2 1 3 r1; call2 0 3 r2; call2 2 3 r3].
Proof.
  destruct LU2 as (A & B & C).
  do 3 eexists. eexists. split; [|split].
  - one_call ltac:(rewrite A). one_call idtac. one_call ltac:(rewrite (neb_f 0)). constructor.
  - intros c Hc. assert (E : c_n c = 2%nat /\ c_sw c = sw2 /\ c_jac c = fun _ => two)
      by (destruct Hc as [<-|[<-|[<-|[]]]]; auto).
    destruct E as (-> & -> & ->). split; [reflexivity|].
    intros x c1 c2 J E _ _ i j _ _. unfold sw2 in E. injection E as _ _ <-. reflexivity.
  - eexists. split; [right; right; left; reflexivity|]. split; [reflexivity|]. split; [reflexivity|].
    unfold call2. cbn -[GauszSolve LUFactorization]. rewrite B, C. intros H. specialize (H 1%nat ltac:(lia)).
    cbn in H. unfold setv in H. cbn in H. lra.
Qed.
