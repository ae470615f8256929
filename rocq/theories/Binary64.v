(* The machine arithmetic of the model instantiated with IEEE 754 double
   (binary64, round to nearest even), as formalised by Flocq.

   Modelled: the C++ type double and its operators + - * / unary-, fabs and the
   comparisons, on an IEEE machine in the default rounding mode, without excess
   precision and without contraction to fma.  All NaNs are one value (payloads
   are not modelled).  The functions of libm (sin .. erfc, pow, ceil, floor) are
   parameters of the instance: nothing is assumed about them, so the theorems
   hold for every library. *)
From Coq Require Import ZArith Reals Psatz Bool List.
From Flocq Require Import Core BinarySingleNaN Plus_error.
Require Import Verif.AdModel Verif.AdRecord Verif.AdSpec.
Import ListNotations.
Local Open Scope Z_scope.

Definition b64 := binary_float 53 1024.
Definition Hp : Prec_gt_0 53 := eq_refl.
Definition He : Prec_lt_emax 53 1024 := eq_refl.

Definition bz : b64 := B754_zero false.
Definition b1 : b64 := @B754_finite 53 1024 false 4503599627370496 (-52) eq_refl.
Definition b2 : b64 := @B754_finite 53 1024 false 4503599627370496 (-51) eq_refl.
Definition b3 : b64 := @B754_finite 53 1024 false 6755399441055744 (-51) eq_refl.
Definition bhalf : b64 := @B754_finite 53 1024 false 4503599627370496 (-53) eq_refl.
Definition bplus := @Bplus 53 1024 Hp He mode_NE.
Definition bminus := @Bminus 53 1024 Hp He mode_NE.
Definition bmult := @Bmult 53 1024 Hp He mode_NE.
Definition bdiv := @Bdiv 53 1024 Hp He mode_NE.
Definition bneg : b64 -> b64 := @Bopp 53 1024.
Definition bofnat (n : nat) : b64 :=
  binary_normalize 53 1024 Hp He mode_NE (Z.of_nat n) 0 false.
(* (size_t)trunc(fabs(x)) *)
Definition btonat (x : b64) : nat := Z.to_nat (Z.abs (Btrunc x)).

Record Libm := {
  m_fn : fname -> b64 -> b64;
  m_pow : b64 -> b64 -> b64;
  m_ceil : b64 -> b64;
  m_floor : b64 -> b64
}.

Definition binary64 (M : Libm) : Arith := {|
  V := b64;
  zero := bz; one := b1; two := b2; three := b3; half := bhalf;
  add := bplus; sub := bminus; mul := bmult; dvd := bdiv;
  neg := @Bopp 53 1024; vabs := @Babs 53 1024;
  vceil := m_ceil M; vfloor := m_floor M;
  fn := m_fn M; vpow := m_pow M;
  ltb := @Bltb 53 1024; leb := @Bleb 53 1024; eqb := @Beqb 53 1024;
  vnan := B754_nan; vinf := B754_infinity false;
  ofnat := bofnat; tonat := btonat
|}.

Lemma b1_R : B2R b1 = 1%R.
Proof. unfold b1, B2R, F2R; simpl. lra. Qed.

Lemma bplus_comm x y : bplus x y = bplus y x.
Proof.
  destruct x as [[]|[]| |[] mx ex Hx], y as [[]|[]| |[] my ey Hy]; try reflexivity;
    unfold bplus, Bplus; rewrite Z.min_comm; f_equal; unfold Fplus_naive; apply Z.add_comm.
Qed.

Lemma bmult_comm x y : bmult x y = bmult y x.
Proof.
  destruct x as [[]|[]| |sx mx ex Hx], y as [[]|[]| |sy my ey Hy]; try reflexivity;
    try (destruct sx; reflexivity); try (destruct sy; reflexivity).
  apply B2SF_inj. unfold bmult, Bmult. rewrite !B2SF_SF2B.
  now rewrite xorb_comm, Pos.mul_comm, Z.add_comm.
Qed.

Lemma bnegadd a b : bplus (Bopp b) a = bminus a b.
Proof.
  destruct a as [[]|[]| |[] mx ex Hx], b as [[]|[]| |[] my ey Hy]; try reflexivity;
    unfold bplus, bminus, Bplus, Bminus, Bopp; rewrite Z.min_comm; f_equal;
    unfold Fplus_naive; apply Z.add_comm.
Qed.

Lemma beq_val (x c : b64) : is_finite c = true -> B2R c <> 0%R ->
  Beqb x c = true -> x = c.
Proof.
  intros Fc Nz H. destruct (is_finite x) eqn:Fx.
  - rewrite Beqb_correct in H by assumption.
    destruct (Req_bool_spec (B2R x) (B2R c)) as [E|]; [|discriminate].
    apply B2R_Bsign_inj; auto.
    destruct (Rlt_or_le (B2R c) 0) as [Hc|Hc].
    + assert (forall z : b64, is_finite z = true -> (B2R z < 0)%R -> Bsign z = true) as S.
      { intros z Fz Hz. destruct z as [s| | |[] m e He']; try discriminate; auto;
        simpl in Hz; exfalso.
        - lra.
        - assert (0 < F2R (Float radix2 (Zpos m) e))%R by (apply F2R_gt_0; reflexivity).
          unfold cond_Zopp in Hz. lra. }
      rewrite !S; auto. now rewrite E.
    + assert (forall z : b64, is_finite z = true -> (0 < B2R z)%R -> Bsign z = false) as S.
      { intros z Fz Hz. destruct z as [s| | |[] m e He']; try discriminate; auto;
        simpl in Hz; exfalso.
        - lra.
        - assert (F2R (Float radix2 (Zneg m) e) < 0)%R by (apply F2R_lt_0; reflexivity).
          lra. }
      rewrite !S; auto; rewrite ?E; lra.
  - destruct x as [| [] | |]; try discriminate; destruct c as [| [] | |[]]; discriminate.
Qed.

Lemma bmult_one a : bmult b1 a = a.
Proof.
  destruct a as [[]|[]| |s m e H] eqn:Ea; try reflexivity.
  rewrite <- Ea. pose proof (@Bmult_correct 53 1024 Hp He mode_NE b1 a) as C.
  rewrite b1_R, Rmult_1_l in C.
  rewrite round_generic in C; [|apply valid_rnd_N|apply generic_format_B2R].
  rewrite Rlt_bool_true in C by apply abs_B2R_lt_emax.
  destruct C as (C1 & C2 & C3).
  assert (F : is_finite (bmult b1 a) = true) by (unfold bmult; rewrite C2, Ea; reflexivity).
  apply B2R_Bsign_inj; auto; [now rewrite Ea|].
  unfold bmult. rewrite C3; [simpl; now destruct (Bsign a)|].
  unfold bmult in F. clear -F. now destruct (Bmult mode_NE b1 a).
Qed.

Lemma bmult_mone a : bmult (Bopp b1) a = Bopp a.
Proof.
  destruct a as [[]|[]| |s m e H] eqn:Ea; try reflexivity.
  rewrite <- Ea. pose proof (@Bmult_correct 53 1024 Hp He mode_NE (Bopp b1) a) as C.
  rewrite B2R_Bopp, b1_R in C.
  replace (- (1) * B2R a)%R with (B2R (Bopp a)) in C by (rewrite B2R_Bopp; ring).
  rewrite round_generic in C; [|apply valid_rnd_N|apply generic_format_B2R].
  rewrite Rlt_bool_true in C by apply abs_B2R_lt_emax.
  destruct C as (C1 & C2 & C3).
  assert (F : is_finite (bmult (Bopp b1) a) = true)
    by (unfold bmult; rewrite C2, Ea; reflexivity).
  apply B2R_Bsign_inj; auto; [now rewrite Ea|].
  unfold bmult. rewrite C3; [rewrite Ea; reflexivity|].
  unfold bmult in F. clear -F. now destruct (Bmult mode_NE (Bopp b1) a).
Qed.

(* The facts the recorder relies on hold for IEEE double. *)
Theorem binary64_laws M : Laws (binary64 M).
Proof.
  constructor; simpl.
  - apply bplus_comm.
  - apply bmult_comm.
  - intros c H. apply beq_val; auto. rewrite b1_R. lra.
  - intros c H. apply beq_val; auto. change (B2R (Bopp b1) <> 0%R).
    rewrite B2R_Bopp, b1_R. lra.
  - apply bmult_one.
  - apply bmult_mone.
  - intros. apply bnegadd.
  - reflexivity.
  - reflexivity.
Qed.

(* Adding zero is not the identity: 0.0 + -0.0 is 0.0. *)
Theorem binary64_no_zero_laws M : ~ ZeroLaws (binary64 M).
Proof.
  intros [_ H _]. specialize (H (B754_zero true)). discriminate H.
Qed.

(* Everything but NaN compares with zero like a number. *)
Theorem binary64_ordered M (v : b64) : is_nan v = false -> ordered (binary64 M) v.
Proof.
  intros H. unfold ordered; simpl.
  destruct v as [[]|[]| |[] m e Hv]; try discriminate H;
    repeat split; try reflexivity; try discriminate.
Qed.

Theorem binary64_nan_not_ordered M : ~ ordered (binary64 M) B754_nan.
Proof. intros (_ & _ & H & _). apply H. reflexivity. Qed.

(* ------------------------------------------------------------------ *)
(* a OP c is decided by  -c + a OP 0 : right for finite numbers.        *)

Lemma fexp_notFTZ : Exp_not_FTZ (SpecFloat.fexp 53 1024).
Proof. exact (@monotone_exp_not_FTZ _ (@FLT_exp_valid (3 - 1024 - 53) 53 Hp) (FLT_exp_monotone _ _)). Qed.

Lemma shift_compare (a c : b64) : is_finite a = true -> is_finite c = true ->
  Bcompare (bplus (Bopp c) a) bz = Bcompare a c.
Proof.
  intros Fa Fc.
  rewrite (@Bcompare_correct 53 1024 a c Fa Fc).
  assert (Fo : is_finite (Bopp c) = true) by (now rewrite is_finite_Bopp).
  pose proof (@Bplus_correct 53 1024 Hp He mode_NE (Bopp c) a Fo Fa) as C.
  rewrite B2R_Bopp in C.
  assert (E : (- B2R c + B2R a = B2R a - B2R c)%R) by ring.
  set (d := (- B2R c + B2R a)%R) in *.
  assert (Rc : Rcompare (B2R a) (B2R c) = Rcompare d 0).
  { destruct (Rcompare_spec (B2R a) (B2R c)); symmetry;
      [apply Rcompare_Lt|apply Rcompare_Eq|apply Rcompare_Gt]; rewrite E; lra. }
  rewrite Rc.
  set (rd := round radix2 (SpecFloat.fexp 53 1024) (round_mode mode_NE) d) in *.
  assert (Vf : Valid_exp (SpecFloat.fexp 53 1024)) by exact (@FLT_exp_valid (3 - 1024 - 53) 53 Hp).
  assert (Rr : Rcompare rd 0 = Rcompare d 0).
  { destruct (Rcompare_spec d 0) as [H|H|H].
    - apply Rcompare_Lt. destruct (Rle_lt_or_eq_dec rd 0) as [G|G]; auto.
      + unfold rd. rewrite <- (round_0 radix2 (SpecFloat.fexp 53 1024) (round_mode mode_NE)).
        apply round_le; auto with typeclass_instances. lra.
      + exfalso. revert G. unfold rd, d.
        apply round_plus_neq_0; auto with typeclass_instances.
        * apply fexp_notFTZ.
        * apply generic_format_opp, generic_format_B2R.
        * apply generic_format_B2R.
        * fold d. lra.
    - apply Rcompare_Eq. unfold rd. rewrite H. apply round_0; auto with typeclass_instances.
    - apply Rcompare_Gt. destruct (Rle_lt_or_eq_dec 0 rd) as [G|G]; auto.
      + unfold rd. rewrite <- (round_0 radix2 (SpecFloat.fexp 53 1024) (round_mode mode_NE)).
        apply round_le; auto with typeclass_instances. lra.
      + exfalso. symmetry in G. revert G. unfold rd, d.
        apply round_plus_neq_0; auto with typeclass_instances.
        * apply fexp_notFTZ.
        * apply generic_format_opp, generic_format_B2R.
        * apply generic_format_B2R.
        * fold d. lra. }
  destruct (Rlt_bool_spec (Rabs rd) (bpow radix2 1024)) as [Hlt|Hge].
  - destruct C as (C1 & C2 & C3). unfold bplus.
    rewrite Bcompare_correct by auto.
    rewrite C1. simpl (B2R bz). now rewrite Rr.
  - (* overflow *) destruct C as (C1 & C2).
    fold bplus in C1. unfold Bcompare. fold bplus. rewrite C1.
    assert (Sg : Bsign a = true -> (d < 0)%R).
    { intros Sa. rewrite Sa in C2.
      assert (B2R a <= 0)%R.
      { destruct a as [s| | |s m e H]; simpl in *; subst; try lra.
        apply Rlt_le, F2R_lt_0. reflexivity. }
      assert (B2R (Bopp c) <= 0)%R.
      { destruct (Bopp c) as [s| | |s m e H']; simpl in *; subst; try lra.
        apply Rlt_le, F2R_lt_0. reflexivity. }
      rewrite B2R_Bopp in H0.
      assert (d <> 0)%R.
      { intros D0. unfold rd in Hge. rewrite D0, round_0, Rabs_R0 in Hge
          by auto with typeclass_instances.
        pose proof (bpow_gt_0 radix2 1024). lra. }
      unfold d in *. lra. }
    assert (Sg' : Bsign a = false -> (0 < d)%R).
    { intros Sa. rewrite Sa in C2.
      assert (0 <= B2R a)%R.
      { destruct a as [s| | |s m e H]; simpl in *; subst; try lra.
        apply Rlt_le, F2R_gt_0. reflexivity. }
      assert (0 <= B2R (Bopp c))%R.
      { destruct (Bopp c) as [s| | |s m e H']; simpl in *; subst; try lra.
        apply Rlt_le, F2R_gt_0. reflexivity. }
      rewrite B2R_Bopp in H0.
      assert (d <> 0)%R.
      { intros D0. unfold rd in Hge. rewrite D0, round_0, Rabs_R0 in Hge
          by auto with typeclass_instances.
        pose proof (bpow_gt_0 radix2 1024). lra. }
      unfold d in *. lra. }
    rewrite C2. destruct (Bsign a) eqn:Sa; simpl.
    + rewrite Rcompare_Lt by auto. reflexivity.
    + rewrite Rcompare_Gt by auto. reflexivity.
Qed.

(* bofnat and btonat: locations and subscripts below 2^53 survive the round trip
   through a double. *)
Theorem nat_roundtrip n : (Z.of_nat n <= 2 ^ 53)%Z -> btonat (bofnat n) = n.
Proof.
  intros H. unfold btonat, bofnat.
  pose proof (@binary_normalize_correct 53 1024 Hp He mode_NE (Z.of_nat n) 0 false) as C.
  cbv zeta in C.
  assert (E : F2R (Float radix2 (Z.of_nat n) 0) = IZR (Z.of_nat n)).
  { unfold F2R. simpl. ring. }
  rewrite E in C.
  assert (G : generic_format radix2 (SpecFloat.fexp 53 1024) (IZR (Z.of_nat n))).
  { destruct (Z.eq_dec (Z.of_nat n) (2 ^ 53)) as [En|En].
    - rewrite En. change (IZR (2 ^ 53)) with (IZR (Zpower radix2 53)).
      rewrite IZR_Zpower by lia. apply generic_format_bpow.
      unfold SpecFloat.fexp, SpecFloat.emin. lia.
    - rewrite <- E. apply generic_format_FLT with (emin := (3 - 1024 - 53)%Z) (prec := 53%Z).
      exists (Float radix2 (Z.of_nat n) 0); auto; simpl; lia. }
  rewrite round_generic in C; auto with typeclass_instances.
  rewrite Rlt_bool_true in C.
  2: { rewrite Rabs_pos_eq by (apply IZR_le; lia).
       apply Rle_lt_trans with (IZR (2 ^ 53)); [now apply IZR_le|].
       change (IZR (2 ^ 53)) with (IZR (Zpower radix2 53)).
       rewrite IZR_Zpower by lia. apply bpow_lt. lia. }
  destruct C as (C1 & _).
  assert (T : Btrunc (binary_normalize 53 1024 Hp He mode_NE (Z.of_nat n) 0 false) = Z.of_nat n).
  { apply eq_IZR. rewrite Btrunc_correct by exact He. rewrite C1.
    rewrite round_generic; auto with typeclass_instances.
    apply generic_format_FIX. exists (Float radix2 (Z.of_nat n) 0); auto. }
  rewrite T. lia.
Qed.
