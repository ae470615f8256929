(* Derivatives of the operations (C14).                                   *)
From Coq Require Import List ZArith Bool Arith Lia Reals Lra.
From Coquelicot Require Import Coquelicot.
Require Import Verif.AdModel Verif.AdRecord Verif.AdSpec Verif.AdReplay Verif.AdRestore
  Verif.AdReal Verif.AdLin.
Import ListNotations.
Set Implicit Arguments.
Unset Asymmetric Patterns.
Local Open Scope R_scope.

(* ------------------------------------------------------------------ *)
(* Derivatives of the elementary functions                              *)

Lemma der_eq (f : R -> R) (x a b : R) : is_derive f x a -> a = b -> is_derive f x b.
Proof. now intros H <-. Qed.
Lemma der_loc (f g : R -> R) (x a : R) : locally x (fun t => g t = f t) -> is_derive g x a ->
  is_derive f x a.
Proof. intros L H. eapply is_derive_ext_loc; [|exact H]. exact L. Qed.

Lemma d_id (x : R) : is_derive (fun t : R => t) x 1.
Proof. apply (@is_derive_id R_AbsRing). Qed.
Lemma d_const (c x : R) : is_derive (fun _ : R => c) x 0.
Proof. apply (@is_derive_const R_AbsRing R_NormedModule). Qed.
Lemma d_plus (f g : R -> R) (x a b : R) : is_derive f x a -> is_derive g x b ->
  is_derive (fun t => f t + g t) x (a + b).
Proof. apply (@is_derive_plus R_AbsRing R_NormedModule). Qed.
Lemma d_minus (f g : R -> R) (x a b : R) : is_derive f x a -> is_derive g x b ->
  is_derive (fun t => f t - g t) x (a - b).
Proof. apply (@is_derive_minus R_AbsRing R_NormedModule). Qed.
Lemma d_opp (f : R -> R) (x a : R) : is_derive f x a -> is_derive (fun t => - f t) x (- a).
Proof. apply (@is_derive_opp R_AbsRing R_NormedModule). Qed.
Lemma d_mult (f g : R -> R) (x a b : R) : is_derive f x a -> is_derive g x b ->
  is_derive (fun t => f t * g t) x (a * g x + f x * b).
Proof. intros A B. apply (is_derive_mult f g x a b A B). intros n m. apply Rmult_comm. Qed.
Lemma d_div (f g : R -> R) (x a b : R) : is_derive f x a -> is_derive g x b -> g x <> 0 ->
  is_derive (fun t => f t / g t) x ((a * g x - f x * b) / (g x) ^ 2).
Proof. intros A B H. now apply is_derive_div. Qed.
Lemma d_comp (f g : R -> R) (x a b : R) : is_derive g x a -> is_derive f (g x) b ->
  is_derive (fun t => f (g t)) x (b * a).
Proof.
  intros A B. evar_last; [apply (is_derive_comp f g x b a B A)|].
  unfold scal; cbn. unfold mult; cbn. ring.
Qed.

Lemma loc_gt (x a : R) : a < x -> locally x (fun t => a < t).
Proof. intros H. now apply (open_gt a x). Qed.
Lemma loc_lt (x a : R) : x < a -> locally x (fun t => t < a).
Proof. intros H. now apply (open_lt a x). Qed.

Lemma der_exp x : is_derive exp x (exp x).
Proof. apply is_derive_exp. Qed.
Lemma der_ln x : 0 < x -> is_derive ln x (/ x).
Proof. apply is_derive_ln. Qed.
Lemma der_sqrt x : 0 < x -> is_derive sqrt x (/ (2 * sqrt x)).
Proof.
  intros H. evar_last. apply (is_derive_sqrt (fun t => t) x 1); [apply (@is_derive_id R_AbsRing)|exact H].
  unfold Rdiv. ring.
Qed.
Lemma der_sin x : is_derive Rtrigo_def.sin x (cos x).
Proof. apply is_derive_sin. Qed.
Lemma der_cos x : is_derive cos x (- Rtrigo_def.sin x).
Proof. apply is_derive_cos. Qed.
Lemma der_atan x : is_derive atan x (/ (1 + x * x)).
Proof. evar_last. apply is_derive_atan. unfold Rsqr. f_equal; ring. Qed.
Lemma der_asin x : -1 < x < 1 -> is_derive asin x (/ sqrt (1 - x * x)).
Proof.
  intros H. apply is_derive_Reals.
  pose proof (derive_pt_asin x H) as E. unfold derive_pt in E.
  destruct (derivable_pt_asin x H) as [l L]. cbn in E. subst l.
  unfold Rsqr in L. unfold Rdiv in L. rewrite Rmult_1_l in L. exact L.
Qed.
Lemma der_acos x : -1 < x < 1 -> is_derive acos x (- / sqrt (1 - x * x)).
Proof.
  intros H. apply is_derive_Reals.
  pose proof (derive_pt_acos x H) as E. unfold derive_pt in E.
  destruct (derivable_pt_acos x H) as [l L]. cbn in E. subst l.
  unfold Rsqr in L. unfold Rdiv in L.
  replace (- / sqrt (1 - x * x)) with (-1 * / sqrt (1 - x * x)) by ring. exact L.
Qed.
Lemma sqrt_gt_abs x : Rabs x < sqrt (x * x + 1).
Proof.
  rewrite <- (sqrt_Rsqr_abs x). apply sqrt_lt_1_alt. unfold Rsqr. split; [|lra]. nra.
Qed.
Lemma der_asinh x : is_derive Rasinh x (/ sqrt (x * x + 1)).
Proof.
  unfold Rasinh.
  assert (P : 0 < x * x + 1) by nra.
  assert (S : 0 < sqrt (x * x + 1)) by now apply sqrt_lt_R0.
  pose proof (sqrt_gt_abs x) as A.
  assert (Q : 0 < x + sqrt (x * x + 1)).
  { pose proof (Rle_abs (- x)). rewrite Rabs_Ropp in H. lra. }
  auto_derive; [repeat split; auto|].
  set (s := sqrt (x * x + 1)) in *. field. lra.
Qed.
Lemma der_acosh x : 1 < x -> is_derive Racosh x (/ sqrt (x * x - 1)).
Proof.
  intros H. unfold Racosh.
  assert (P : 0 < x * x - 1) by nra.
  assert (S : 0 < sqrt (x * x - 1)) by now apply sqrt_lt_R0.
  auto_derive; [repeat split; auto; unfold Rminus in *; lra|].
  replace (x * x + - (1)) with (x * x - 1) by ring.
  set (s := sqrt (x * x - 1)) in *. field. lra.
Qed.
Lemma der_atanh x : -1 < x < 1 -> is_derive Ratanh x (/ (1 - x * x)).
Proof.
  intros H. unfold Ratanh.
  assert (P : 0 < (1 + x) / (1 - x)) by (apply Rdiv_lt_0_compat; lra).
  auto_derive; [repeat split; unfold Rdiv, Rminus in *; try lra|].
  field. repeat split; try lra. nra.
Qed.
Lemma der_erf x : is_derive Rerf x (2 / sqrt (acos (-1)) * exp (- x * x)).
Proof.
  unfold Rerf. apply is_derive_scal.
  assert (C : forall z, continuous (fun t => exp (- t * t)) z).
  { intros z. apply (@ex_derive_continuous R_AbsRing R_NormedModule (fun t => exp (- t * t))).
    auto_derive. auto. }
  apply (@is_derive_RInt R_NormedModule (fun t => exp (- t * t))
           (fun y => RInt (fun t => exp (- t * t)) 0 y) 0).
  - exists (mkposreal 1 Rlt_0_1). intros y _.
    apply (@RInt_correct R_CompleteNormedModule).
    apply (@ex_RInt_continuous R_CompleteNormedModule). intros z _. apply C.
  - apply C.
Qed.
Lemma der_erfc x : is_derive Rerfc x (- (2 / sqrt (acos (-1)) * exp (- x * x))).
Proof.
  unfold Rerfc. evar_last.
  apply (@d_minus (fun _ => 1) Rerf x 0); [apply d_const|apply der_erf].
  ring.
Qed.

Lemma der_Rpower x c : 0 < x -> is_derive (fun t => Rpower t c) x (Rpower x c * c / x).
Proof.
  intros H. unfold Rpower. auto_derive; [auto|]. field. lra.
Qed.
Lemma der_cbrt x : x <> 0 -> is_derive Rcbrt x (1 / (3 * Rcbrt x * Rcbrt x)).
Proof.
  intros H. destruct (Rtotal_order x 0) as [L|[E|G]]; [|contradiction|].
  - assert (Px : 0 < - x) by lra.
    apply (@der_loc _ (fun t => - Rpower (- t) (/ 3))).
    { apply (filter_imp (fun t => t < 0)); [|now apply loc_lt].
      intros t Ht. unfold Rcbrt. destruct (Rlt_dec 0 t), (Rlt_dec t 0); lra. }
    evar_last.
    { apply d_opp. apply (@d_comp (fun t => Rpower t (/ 3)) Ropp x (-1)).
      - apply (@der_eq Ropp x (- (1))); [apply (@d_opp (fun t => t)), d_id|ring].
      - now apply der_Rpower. }
    unfold Rcbrt. destruct (Rlt_dec 0 x), (Rlt_dec x 0); try lra.
    set (y := Rpower (- x) (/ 3)) in *.
    assert (Y : 0 < y) by apply exp_pos.
    assert (C : y * (y * y) = - x).
    { unfold y. rewrite <- !Rpower_plus. replace (/ 3 + (/ 3 + / 3)) with 1 by field.
      now apply Rpower_1. }
    replace x with (- (y * (y * y))) by lra. field. nra.
  - apply (@der_loc _ (fun t => Rpower t (/ 3))).
    { apply (filter_imp (fun t => 0 < t)); [|now apply loc_gt].
      intros t Ht. unfold Rcbrt. destruct (Rlt_dec 0 t); lra. }
    evar_last; [now apply der_Rpower|].
    unfold Rcbrt. destruct (Rlt_dec 0 x); try lra.
    set (y := Rpower x (/ 3)) in *.
    assert (Y : 0 < y) by apply exp_pos.
    assert (C : y * (y * y) = x).
    { unfold y. rewrite <- !Rpower_plus. replace (/ 3 + (/ 3 + / 3)) with 1 by field.
      now apply Rpower_1. }
    replace x with (y * (y * y)) by lra. field. nra.
Qed.

Lemma der_powerRZ n x : x <> 0 ->
  is_derive (fun t => powerRZ t n) x (powerRZ x n * IZR n / x).
Proof.
  intros H.
  assert (P : forall k : nat, is_derive (fun t => t ^ k) x (x ^ k * INR k / x)).
  { intros k. evar_last. apply (is_derive_pow (fun t => t) k x 1). apply (@is_derive_id R_AbsRing).
    destruct k as [|k]; cbn [pred pow]; [cbn; field; auto|]. field. auto. }
  destruct n as [|p|p]; cbn [powerRZ].
  - evar_last; [apply d_const|]. unfold zero; cbn. field. auto.
  - evar_last; [apply P|]. rewrite INR_IZR_INZ, positive_nat_Z. reflexivity.
  - evar_last.
    { apply (is_derive_inv (fun t => t ^ Pos.to_nat p) x); [apply P|now apply pow_nonzero]. }
    rewrite INR_IZR_INZ, positive_nat_Z. change (Z.neg p) with (- Z.pos p)%Z. rewrite opp_IZR.
    field. split; auto. now apply pow_nonzero.
Qed.
Lemma der_vpow x c : 0 < x \/ (x < 0 /\ c = Rfloor c) ->
  is_derive (fun t => Rvpow t c) x (Rvpow x c * c / x).
Proof.
  intros [H|[H Hc]].
  - apply (@der_loc _ (fun t => Rpower t c)).
    { apply (filter_imp (fun t => 0 < t)); [|now apply loc_gt].
      intros t Ht. unfold Rvpow. destruct (Rlt_dec 0 t); lra. }
    unfold Rvpow. destruct (Rlt_dec 0 x); [|lra]. now apply der_Rpower.
  - apply (@der_loc _ (fun t => powerRZ t (Int_part c))).
    { apply (filter_imp (fun t => t < 0)); [|now apply loc_lt].
      intros t Ht. unfold Rvpow. destruct (Rlt_dec 0 t); [lra|].
      destruct (Req_EM_T t 0); [lra|]. destruct (Req_EM_T c (Rfloor c)); [auto|contradiction]. }
    unfold Rvpow. destruct (Rlt_dec 0 x); [lra|].
    destruct (Req_EM_T x 0); [lra|]. destruct (Req_EM_T c (Rfloor c)); [|contradiction].
    evar_last; [apply der_powerRZ; lra|].
    change (IZR (Int_part c)) with (Rfloor c). rewrite <- Hc. reflexivity.
Qed.

Lemma floor_unique x z : IZR z <= x < IZR z + 1 -> Int_part x = z.
Proof.
  intros [A B]. pose proof (base_Int_part x) as [C D].
  assert (z < Int_part x + 1)%Z by (apply lt_IZR; rewrite plus_IZR; lra).
  assert (Int_part x < z + 1)%Z by (apply lt_IZR; rewrite plus_IZR; lra).
  lia.
Qed.
Lemma floor_spec x : Rfloor x <= x < Rfloor x + 1.
Proof. unfold Rfloor. pose proof (base_Int_part x). lra. Qed.
Lemma der_floor x : x <> Rfloor x -> is_derive Rfloor x 0.
Proof.
  intros H. pose proof (floor_spec x) as [A B].
  apply (@der_loc _ (fun _ => Rfloor x)).
  - apply (filter_imp (fun t => Rfloor x < t /\ t < Rfloor x + 1)).
    + intros t Ht. unfold Rfloor in *. f_equal. symmetry. apply floor_unique. lra.
    + apply filter_and; [apply loc_gt|apply loc_lt]; lra.
  - apply d_const.
Qed.
Lemma der_ceil x : x <> Rceil x -> is_derive Rceil x 0.
Proof.
  intros H. unfold Rceil in *. evar_last.
  { apply d_opp. apply (@d_comp Rfloor Ropp x (-1)).
    - apply (@der_eq Ropp x (- (1))); [apply (@d_opp (fun t => t)), d_id|ring].
    - apply der_floor. lra. }
  ring.
Qed.
Lemma der_abs x : x <> 0 -> is_derive Rabs x (if Rltb x 0 then -1 else 1).
Proof.
  intros H. unfold Rltb. destruct (Rlt_dec x 0).
  - apply (@der_loc _ Ropp).
    + apply (filter_imp (fun t => t < 0)); [|now apply loc_lt].
      intros t Ht. symmetry. now apply Rabs_left.
    + apply (@der_eq Ropp x (- (1))); [apply (@d_opp (fun t => t)), d_id|ring].
  - apply (@der_loc _ (fun t => t)).
    + apply (filter_imp (fun t => 0 < t)); [|apply loc_gt; lra].
      intros t Ht. symmetry. apply Rabs_right. lra.
    + apply (@is_derive_id R_AbsRing).
Qed.
